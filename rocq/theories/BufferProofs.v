(** Proofs about [lexy::buffer]. *)
From Verif Require Import Prelude BufferModel BufferSpec.
Open Scope N_scope.

(** ** Allocation size *)
Lemma round_size_ge n : (n + 8 <= round_size_for_swar n)%nat.
Proof. unfold round_size_for_swar. destruct (Nat.ltb_spec 0 (Nat.modulo n 8)); lia. Qed.
Lemma round_size_mult n : Nat.modulo (round_size_for_swar n) 8 = 0%nat.
Proof.
  unfold round_size_for_swar. pose proof (Nat.mod_upper_bound n 8 ltac:(lia)).
  destruct (Nat.ltb_spec 0 (Nat.modulo n 8)); lia.
Qed.

Lemma upd_same {A} (f : nat -> A) k v : upd f k v k = v.
Proof. unfold upd. now rewrite Nat.eqb_refl. Qed.
Lemma upd_other {A} (f : nat -> A) k v i : i <> k -> upd f k v i = f i.
Proof. unfold upd. intros H. now destruct (Nat.eqb_spec i k). Qed.

Section Machine.
Variables (sentinel : bool) (eofc junk : N).

Definition pad_of (n : nat) : nat := alloc_size sentinel n - n.
Lemma alloc_ge n : (n <= alloc_size sentinel n)%nat.
Proof. unfold alloc_size. destruct sentinel; [pose proof (round_size_ge (n + 1))|]; lia. Qed.

Definition block_of (res : nat) (l : list N) : block :=
  Block res (alloc_size sentinel (length l)) (l ++ repeat eofc (pad_of (length l))).

Definition good (h : nat -> option block) (b : bufv) (l : list N) : Prop :=
  b_size b = length l /\
  match b_data b with
  | None => l = []
  | Some p => h p = Some (block_of (b_res b) l)
  end.

Record Inv (h : nat -> option block) (n : nat) (f : nat -> option bufv) (g : vars) : Prop := {
  inv_rel : forall r, match f r, g r with
                      | None, None => True
                      | Some b, Some (res, l) => b_res b = res /\ good h b l
                      | _, _ => False
                      end;
  inv_sep : forall r1 r2 b1 b2 p, f r1 = Some b1 -> f r2 = Some b2 ->
            b_data b1 = Some p -> b_data b2 = Some p -> r1 = r2;
  inv_leak : forall p, h p <> None -> exists r b, f r = Some b /\ b_data b = Some p;
  inv_fresh : forall p, (n <= p)%nat -> h p = None
}.

Definition no_ptr (f : nat -> option bufv) (r : nat) : Prop :=
  forall b, f r = Some b -> b_data b = None.

Lemma inv_none h n f g r : Inv h n f g -> (f r = None <-> g r = None).
Proof.
  intros H. pose proof (inv_rel _ _ _ _ H r) as R.
  destruct (f r), (g r) as [[? ?]|]; split; intros; try tauto; try congruence.
Qed.
Lemma inv_some h n f g r b : Inv h n f g -> f r = Some b ->
  exists l, g r = Some (b_res b, l) /\ good h b l.
Proof.
  intros H E. pose proof (inv_rel _ _ _ _ H r) as R. rewrite E in R.
  destruct (g r) as [[res l]|]; [|tauto]. destruct R as [<- R]. eauto.
Qed.
Lemma inv_ptr_lt h n f g r b p : Inv h n f g -> f r = Some b -> b_data b = Some p -> (p < n)%nat.
Proof.
  intros H E Ep. destruct (inv_some _ _ _ _ _ _ H E) as (l & _ & _ & G). rewrite Ep in G.
  destruct (Nat.lt_ge_cases p n) as [?|Hge]; [assumption|].
  rewrite (inv_fresh _ _ _ _ H p Hge) in G. discriminate.
Qed.

Lemma inv_ext h n f g h' f' g' : Inv h n f g ->
  (forall p, h' p = h p) -> (forall r, f' r = f r) -> (forall r, g' r = g r) -> Inv h' n f' g'.
Proof.
  intros H Eh Ef Eg. split.
  - intros r. rewrite Ef, Eg. pose proof (inv_rel _ _ _ _ H r) as R.
    destruct (f r), (g r) as [[? ?]|]; auto. destruct R as [R1 [R2 R3]]. split; [exact R1|].
    split; [exact R2|]. destruct (b_data b); [now rewrite Eh|exact R3].
  - intros r1 r2 b1 b2 p. rewrite !Ef. apply (inv_sep _ _ _ _ H).
  - intros p. rewrite Eh. intros Hp. destruct (inv_leak _ _ _ _ H p Hp) as (r & b & E & Ep).
    exists r, b. now rewrite Ef.
  - intros p Hp. rewrite Eh. now apply (inv_fresh _ _ _ _ H).
Qed.

Lemma inv_alloc h n f g r res l : Inv h n f g -> no_ptr f r ->
  Inv (upd h n (Some (block_of res l))) (S n)
      (upd f r (Some (Buf res (Some n) (length l)))) (upd g r (Some (res, l))).
Proof.
  intros H Hn. split.
  - intros r'. destruct (Nat.eq_dec r' r) as [->|Hr].
    + rewrite !upd_same. cbn. split; [reflexivity|]. split; [reflexivity|]. cbn. now rewrite upd_same.
    + rewrite !upd_other by exact Hr. pose proof (inv_rel _ _ _ _ H r') as R.
      destruct (f r') as [b|] eqn:E, (g r') as [[? ?]|]; auto. destruct R as [R1 [R2 R3]].
      split; [exact R1|]. split; [exact R2|]. destruct (b_data b) as [p|] eqn:Ep; [|exact R3].
      rewrite upd_other; [exact R3|]. pose proof (inv_ptr_lt _ _ _ _ _ _ _ H E Ep). lia.
  - intros r1 r2 b1 b2 p E1 E2 P1 P2.
    destruct (Nat.eq_dec r1 r) as [->|H1], (Nat.eq_dec r2 r) as [->|H2]; auto.
    + rewrite upd_same in E1. injection E1 as <-. cbn in P1. injection P1 as <-.
      rewrite upd_other in E2 by exact H2. pose proof (inv_ptr_lt _ _ _ _ _ _ _ H E2 P2). lia.
    + rewrite upd_same in E2. injection E2 as <-. cbn in P2. injection P2 as <-.
      rewrite upd_other in E1 by exact H1. pose proof (inv_ptr_lt _ _ _ _ _ _ _ H E1 P1). lia.
    + rewrite upd_other in E1 by exact H1. rewrite upd_other in E2 by exact H2.
      eapply (inv_sep _ _ _ _ H); eauto.
  - intros p Hp. destruct (Nat.eq_dec p n) as [->|Hpn].
    + exists r, (Buf res (Some n) (length l)). now rewrite upd_same.
    + rewrite upd_other in Hp by exact Hpn. destruct (inv_leak _ _ _ _ H p Hp) as (r' & b & E & Ep).
      exists r', b. split; [|exact Ep]. rewrite upd_other; [exact E|]. intros ->.
      rewrite (Hn b E) in Ep. discriminate.
  - intros p Hp. rewrite upd_other by lia. apply (inv_fresh _ _ _ _ H). lia.
Qed.

Lemma inv_free h n f g r b p : Inv h n f g -> f r = Some b -> b_data b = Some p ->
  Inv (upd h p None) n (upd f r None) (upd g r None).
Proof.
  intros H E Ep. split.
  - intros r'. destruct (Nat.eq_dec r' r) as [->|Hr]; [now rewrite !upd_same|].
    rewrite !upd_other by exact Hr. pose proof (inv_rel _ _ _ _ H r') as R.
    destruct (f r') as [b'|] eqn:E', (g r') as [[? ?]|]; auto. destruct R as [R1 [R2 R3]].
    split; [exact R1|]. split; [exact R2|]. destruct (b_data b') as [p'|] eqn:Ep'; [|exact R3].
    rewrite upd_other; [exact R3|]. intros ->. apply Hr. eapply (inv_sep _ _ _ _ H); eauto.
  - intros r1 r2 b1 b2 q E1 E2 P1 P2.
    destruct (Nat.eq_dec r1 r) as [->|H1]; [rewrite upd_same in E1; discriminate|].
    destruct (Nat.eq_dec r2 r) as [->|H2]; [rewrite upd_same in E2; discriminate|].
    rewrite upd_other in E1, E2 by assumption. eapply (inv_sep _ _ _ _ H); eauto.
  - intros q Hq. destruct (Nat.eq_dec q p) as [->|Hqp]; [rewrite upd_same in Hq; congruence|].
    rewrite upd_other in Hq by exact Hqp. destruct (inv_leak _ _ _ _ H q Hq) as (r' & b' & E' & Ep').
    exists r', b'. split; [|exact Ep']. rewrite upd_other; [exact E'|]. intros ->. congruence.
  - intros q Hq. destruct (Nat.eq_dec q p) as [->|Hqp]; [now rewrite upd_same|].
    rewrite upd_other by exact Hqp. now apply (inv_fresh _ _ _ _ H).
Qed.

(** Giving a slot without a pointer a new state without a pointer. *)
Lemma inv_setnull h n f g r v w : Inv h n f g -> no_ptr f r ->
  (v = None /\ w = None) \/ (exists res, v = Some (Buf res None 0) /\ w = Some (res, [])) ->
  Inv h n (upd f r v) (upd g r w).
Proof.
  intros H Hn Hv. split.
  - intros r'. destruct (Nat.eq_dec r' r) as [->|Hr].
    + rewrite !upd_same. destruct Hv as [[-> ->]|(res & -> & ->)]; [trivial|]. repeat split.
    + rewrite !upd_other by exact Hr. apply (inv_rel _ _ _ _ H r').
  - intros r1 r2 b1 b2 p E1 E2 P1 P2.
    destruct (Nat.eq_dec r1 r) as [->|H1].
    { rewrite upd_same in E1. destruct Hv as [[-> ->]|(res & -> & ->)]; [discriminate|].
      injection E1 as <-. discriminate. }
    destruct (Nat.eq_dec r2 r) as [->|H2].
    { rewrite upd_same in E2. destruct Hv as [[-> ->]|(res & -> & ->)]; [discriminate|].
      injection E2 as <-. discriminate. }
    rewrite upd_other in E1, E2 by assumption. eapply (inv_sep _ _ _ _ H); eauto.
  - intros p Hp. destruct (inv_leak _ _ _ _ H p Hp) as (r' & b & E & Ep).
    exists r', b. split; [|exact Ep]. rewrite upd_other; [exact E|]. intros ->.
    rewrite (Hn b E) in Ep. discriminate.
  - apply (inv_fresh _ _ _ _ H).
Qed.

(** Moving what slot [src] holds to a slot [dst] without a pointer. *)
Lemma inv_move h n f g dst src b v w : Inv h n f g -> no_ptr f dst -> dst <> src ->
  f src = Some b ->
  (v = None /\ w = None) \/ (exists res, v = Some (Buf res None 0) /\ w = Some (res, [])) ->
  Inv h n (upd (upd f dst (Some b)) src v) (upd (upd g dst (g src)) src w).
Proof.
  intros H Hn Hne E Hv. destruct (inv_some _ _ _ _ _ _ H E) as (l & Eg & G).
  assert (Fs : forall r' b', upd (upd f dst (Some b)) src v r' = Some b' ->
    forall p, b_data b' = Some p ->
    (r' = dst /\ b' = b) \/ (r' <> dst /\ r' <> src /\ f r' = Some b')).
  { intros r' b' E' p Ep. destruct (Nat.eq_dec r' src) as [->|Hs].
    - rewrite upd_same in E'. destruct Hv as [[-> _]|(res & -> & _)]; [discriminate|].
      injection E' as <-. discriminate.
    - rewrite upd_other in E' by exact Hs. destruct (Nat.eq_dec r' dst) as [->|Hd].
      + rewrite upd_same in E'. injection E' as <-. now left.
      + rewrite upd_other in E' by exact Hd. right. auto. }
  split.
  - intros r'. destruct (Nat.eq_dec r' src) as [->|Hs].
    + rewrite !upd_same. destruct Hv as [[-> ->]|(res & -> & ->)]; [trivial|]. repeat split.
    + rewrite !(upd_other _ src) by exact Hs. destruct (Nat.eq_dec r' dst) as [->|Hd].
      * rewrite !upd_same, Eg. split; [reflexivity|exact G].
      * rewrite !upd_other by exact Hd. apply (inv_rel _ _ _ _ H r').
  - intros r1 r2 b1 b2 p E1 E2 P1 P2.
    destruct (Fs _ _ E1 _ P1) as [[-> ->]|(H1 & H1' & F1)], (Fs _ _ E2 _ P2) as [[-> ->]|(H2 & H2' & F2)].
    + reflexivity.
    + exfalso. apply H2'. eapply (inv_sep _ _ _ _ H); eauto.
    + exfalso. apply H1'. eapply (inv_sep _ _ _ _ H); eauto.
    + eapply (inv_sep _ _ _ _ H); eauto.
  - intros p Hp. destruct (inv_leak _ _ _ _ H p Hp) as (r' & b' & E' & Ep').
    destruct (Nat.eq_dec r' src) as [->|Hs].
    + exists dst, b. rewrite upd_other, upd_same by congruence. split; [reflexivity|congruence].
    + exists r', b'. split; [|exact Ep']. rewrite upd_other by exact Hs.
      rewrite upd_other; [exact E'|]. intros ->. rewrite (Hn b' E') in Ep'. discriminate.
  - apply (inv_fresh _ _ _ _ H).
Qed.

Lemma inv_swap h n f g d s bd bs ld ls : Inv h n f g -> d <> s ->
  f d = Some bd -> f s = Some bs -> b_res bd = b_res bs ->
  g d = Some (b_res bd, ld) -> g s = Some (b_res bs, ls) ->
  Inv h n (upd (upd f d (Some (Buf (b_res bd) (b_data bs) (b_size bs)))) s
              (Some (Buf (b_res bs) (b_data bd) (b_size bd))))
          (upd (upd g d (Some (b_res bd, ls))) s (Some (b_res bs, ld))).
Proof.
  intros H Hne Ed Es Er Gd Gs.
  assert (Good : good h bd ld /\ good h bs ls).
  { destruct (inv_some _ _ _ _ _ _ H Ed) as (l1 & E1 & G1). rewrite Gd in E1. injection E1 as <-.
    destruct (inv_some _ _ _ _ _ _ H Es) as (l2 & E2 & G2). rewrite Gs in E2. injection E2 as <-. auto. }
  destruct Good as [[Sd Dd] [Ss Ds]].
  set (f' := upd _ s _).
  assert (Fs : forall r' b' p, f' r' = Some b' -> b_data b' = Some p ->
    exists r0 b0, f r0 = Some b0 /\ b_data b0 = Some p /\
       ((r' = d /\ r0 = s) \/ (r' = s /\ r0 = d) \/ (r' <> d /\ r' <> s /\ r0 = r'))).
  { unfold f'. intros r' b' p E' Ep. destruct (Nat.eq_dec r' s) as [->|Hs].
    - rewrite upd_same in E'. injection E' as <-. exists d, bd. cbn in Ep. auto 10.
    - rewrite upd_other in E' by exact Hs. destruct (Nat.eq_dec r' d) as [->|Hd].
      + rewrite upd_same in E'. injection E' as <-. exists s, bs. cbn in Ep. auto 10.
      + rewrite upd_other in E' by exact Hd. exists r', b'. auto 10. }
  split.
  - intros r'. unfold f'. destruct (Nat.eq_dec r' s) as [->|Hs].
    + rewrite !upd_same. cbn. split; [reflexivity|]. split; [exact Sd|]. cbn.
      destruct (b_data bd); [now rewrite <- Er|exact Dd].
    + rewrite !(upd_other _ s) by exact Hs. destruct (Nat.eq_dec r' d) as [->|Hd].
      * rewrite !upd_same. cbn. split; [reflexivity|]. split; [exact Ss|]. cbn.
        destruct (b_data bs); [now rewrite Er|exact Ds].
      * rewrite !upd_other by exact Hd. apply (inv_rel _ _ _ _ H r').
  - intros r1 r2 b1 b2 p E1 E2 P1 P2.
    destruct (Fs _ _ _ E1 P1) as (q1 & c1 & F1 & Q1 & O1).
    destruct (Fs _ _ _ E2 P2) as (q2 & c2 & F2 & Q2 & O2).
    assert (q1 = q2) by (eapply (inv_sep _ _ _ _ H); eauto). subst q2.
    destruct O1 as [[? ?]|[[? ?]|(? & ? & ?)]], O2 as [[? ?]|[[? ?]|(? & ? & ?)]]; subst; congruence.
  - intros p Hp. destruct (inv_leak _ _ _ _ H p Hp) as (r' & b' & E' & Ep').
    unfold f'. destruct (Nat.eq_dec r' s) as [->|Hs].
    + exists d. eexists. rewrite upd_other, upd_same by congruence. split; [reflexivity|]. cbn. congruence.
    + destruct (Nat.eq_dec r' d) as [->|Hd].
      * exists s. eexists. rewrite upd_same. split; [reflexivity|]. cbn. congruence.
      * exists r', b'. rewrite !upd_other by assumption. auto.
  - apply (inv_fresh _ _ _ _ H).
Qed.

(** ** Operations *)
Definition InvS (s : state) (v : vars) : Prop := Inv (st_heap s) (st_next s) (st_regs s) v.

Lemma do_read_good h n f b l : good h b l ->
  do_read (State h n f) (b_data b) (b_size b) = Some l.
Proof.
  intros [Hs Hd]. unfold do_read. cbn. destruct (b_data b) as [p|].
  - rewrite Hd. unfold block_of. cbn [bk_mem]. rewrite Hs.
    destruct (Nat.leb_spec (length l) (length (l ++ repeat eofc (pad_of (length l))))) as [_|Hlt].
    + now rewrite firstn_app_exact.
    + rewrite app_length in Hlt. lia.
  - subst l. rewrite Hs. reflexivity.
Qed.

Lemma construct_range_ok s res l :
  exists s', construct_range sentinel eofc junk s res l
    = Some (s', Buf res (Some (st_next s)) (length l)) /\
    (forall q, st_heap s' q = upd (st_heap s) (st_next s) (Some (block_of res l)) q) /\
    st_next s' = S (st_next s) /\ st_regs s' = st_regs s.
Proof.
  unfold construct_range. cbn [do_allocate].
  destruct (Nat.ltb_spec 0 (length l)) as [Hl|Hl].
  - unfold do_write. cbn [st_heap]. rewrite upd_same. unfold write_front. cbn [bk_mem].
    assert (Hlen : length (allocate_mem sentinel eofc junk (length l)) = alloc_size sentinel (length l)).
    { unfold allocate_mem. rewrite app_length, !repeat_length. pose proof (alloc_ge (length l)). lia. }
    destruct (Nat.leb_spec (length l) (length (allocate_mem sentinel eofc junk (length l)))) as [_|Hlt].
    2:{ rewrite Hlen in Hlt. pose proof (alloc_ge (length l)). lia. }
    eexists. split; [reflexivity|]. cbn [st_heap st_next st_regs bk_res bk_len]. split; [|auto].
    intros q. unfold upd. destruct (q =? st_next s)%nat; [|reflexivity].
    unfold block_of, allocate_mem. do 3 f_equal.
    rewrite <- (repeat_length junk (length l)) at 1. now rewrite skipn_app_exact.
  - destruct l; [|cbn in Hl; lia].
    eexists. split; [reflexivity|]. cbn [st_heap st_next st_regs]. split; [|auto].
    intros q. reflexivity.
Qed.

Lemma builder_write_ok s res l :
  let '(s1, p) := do_allocate sentinel eofc junk s res (length l) in
  exists s2, do_write s1 p l = Some s2 /\ p = st_next s /\
    (forall q, st_heap s2 q = upd (st_heap s) (st_next s) (Some (block_of res l)) q) /\
    st_next s2 = S (st_next s) /\ st_regs s2 = st_regs s.
Proof.
  cbn [do_allocate]. unfold do_write. cbn [st_heap]. rewrite upd_same. unfold write_front. cbn [bk_mem].
  assert (Hlen : length (allocate_mem sentinel eofc junk (length l)) = alloc_size sentinel (length l)).
  { unfold allocate_mem. rewrite app_length, !repeat_length. pose proof (alloc_ge (length l)). lia. }
  destruct (Nat.leb_spec (length l) (length (allocate_mem sentinel eofc junk (length l)))) as [_|Hlt].
  2:{ rewrite Hlen in Hlt. pose proof (alloc_ge (length l)). lia. }
  eexists. split; [reflexivity|]. cbn [st_heap st_next st_regs bk_res bk_len]. split; [reflexivity|].
  split; [|auto].
  intros q. unfold upd. destruct (q =? st_next s)%nat; [|reflexivity].
  unfold block_of, allocate_mem. do 3 f_equal.
  rewrite <- (repeat_length junk (length l)) at 1. now rewrite skipn_app_exact.
Qed.

Lemma no_ptr_none (f : nat -> option bufv) r : f r = None -> no_ptr f r.
Proof. intros E b E'. congruence. Qed.

(** Allocating into a free slot. *)
Lemma alloc_into s v r res l s' : InvS s v -> no_ptr (st_regs s) r ->
  (forall q, st_heap s' q = upd (st_heap s) (st_next s) (Some (block_of res l)) q) ->
  st_next s' = S (st_next s) -> st_regs s' = st_regs s ->
  InvS (set_reg s' r (Some (Buf res (Some (st_next s)) (length l)))) (upd v r (Some (res, l))).
Proof.
  intros H Hn Eh En Er. unfold InvS. cbn [set_reg st_heap st_next st_regs]. rewrite En, Er.
  eapply inv_ext; [eapply inv_alloc; [exact H|exact Hn]| | |]; auto.
Qed.

(** Replacing what slot [d] holds by a fresh copy, then freeing the old block. *)
Lemma replace_ok s v d bd l s1 : InvS s v -> st_regs s d = Some bd ->
  (forall q, st_heap s1 q = upd (st_heap s) (st_next s) (Some (block_of (b_res bd) l)) q) ->
  st_next s1 = S (st_next s) -> st_regs s1 = st_regs s ->
  exists s', do_free sentinel (set_reg s1 d (Some (Buf (b_res bd) (Some (st_next s)) (length l))))
                (Buf (b_res bd) (b_data bd) (b_size bd)) = Some s' /\
    InvS s' (upd v d (Some (b_res bd, l))).
Proof.
  intros H Ed Eh En Er. destruct (inv_some _ _ _ _ _ _ H Ed) as (ld & Gd & Sd & Dd).
  unfold do_free. cbn [b_data b_res b_size]. destruct (b_data bd) as [p|] eqn:Ep.
  - cbn [set_reg st_heap]. assert (Hp : p <> st_next s).
    { pose proof (inv_ptr_lt _ _ _ _ _ _ _ H Ed Ep). lia. }
    rewrite Eh, upd_other, Dd by exact Hp. unfold block_of at 1 2. cbn [bk_res bk_len].
    rewrite Sd, !Nat.eqb_refl. cbn [andb]. eexists. split; [reflexivity|].
    unfold InvS. cbn [set_reg st_heap st_next st_regs]. rewrite En, Er.
    pose proof (inv_free _ _ _ _ _ _ _ H Ed Ep) as Hf.
    assert (Hn : no_ptr (upd (st_regs s) d None) d) by (apply no_ptr_none, upd_same).
    pose proof (inv_alloc _ _ _ _ d (b_res bd) l Hf Hn) as Ha.
    eapply inv_ext; [exact Ha| | |].
    + intros q. unfold upd at 1. destruct (Nat.eqb_spec q p) as [->|Hq].
      * rewrite upd_other by exact Hp. now rewrite upd_same.
      * rewrite Eh. unfold upd. destruct (Nat.eqb_spec q (st_next s)); [reflexivity|].
        now destruct (Nat.eqb_spec q p).
    + intros r. unfold upd. now destruct (r =? d)%nat.
    + intros r. unfold upd. now destruct (r =? d)%nat.
  - eexists. split; [reflexivity|]. apply alloc_into; auto.
    intros b Eb. congruence.
Qed.

Lemma step_refines s v o : InvS s v ->
  match spec_step v o with
  | None => step sentinel eofc junk s o = None
  | Some v' => exists s', step sentinel eofc junk s o = Some s' /\ InvS s' v'
  end.
Proof.
  intros H.
  assert (HN : forall r, st_regs s r = None <-> v r = None) by (intros; eapply inv_none; exact H).
  assert (HS : forall r b, st_regs s r = Some b -> exists l, v r = Some (b_res b, l) /\ good (st_heap s) b l).
  { intros r b E. eapply inv_some; [exact H|exact E]. }
  assert (HV : forall r x, v r = Some x -> exists b, st_regs s r = Some b).
  { intros r x E. destruct (st_regs s r) as [b|] eqn:Eb; [eauto|]. apply HN in Eb. congruence. }
  destruct o as [r res|r res l|r res l|r src|r src res|r src|dst src|dst src|r t|r t|r];
    cbn [spec_step step].
  - (* default *)
    destruct (v r) as [x|] eqn:Er.
    + destruct (HV _ _ Er) as [b ->]. reflexivity.
    + apply HN in Er as Er'. rewrite Er'. eexists. split; [reflexivity|].
      unfold InvS. cbn [set_reg st_heap st_next st_regs].
      apply inv_setnull; [exact H|now apply no_ptr_none|]. right. eauto.
  - (* range *)
    destruct (v r) as [x|] eqn:Er.
    + destruct (HV _ _ Er) as [b ->]. reflexivity.
    + apply HN in Er as Er'. rewrite Er'.
      destruct (construct_range_ok s res l) as (s' & E & Eh & En & Eg). rewrite E.
      eexists. split; [reflexivity|]. apply alloc_into; auto. now apply no_ptr_none.
  - (* builder *)
    destruct (v r) as [x|] eqn:Er.
    + destruct (HV _ _ Er) as [b ->]. reflexivity.
    + apply HN in Er as Er'. rewrite Er'.
      pose proof (builder_write_ok s res l) as Hb. cbn [do_allocate] in Hb |- *.
      destruct Hb as (s2 & E & _ & Eh & En & Eg). rewrite E.
      eexists. split; [reflexivity|]. apply alloc_into; auto. now apply no_ptr_none.
  - (* copy *)
    destruct (v r) as [x|] eqn:Er.
    + destruct (HV _ _ Er) as [b ->]. reflexivity.
    + apply HN in Er as Er'. rewrite Er'. destruct (v src) as [[res l]|] eqn:Es.
      * destruct (HV _ _ Es) as [b Eb]. rewrite Eb. destruct (HS _ _ Eb) as (l' & E' & G).
        rewrite Es in E'. injection E' as -> ->.
        unfold construct_copy. destruct s as [h n f]. rewrite (do_read_good _ _ _ _ _ G).
        destruct (construct_range_ok (State h n f) (b_res b) l') as (s' & E & Eh & En & Eg). rewrite E.
        eexists. split; [reflexivity|]. apply alloc_into; auto. now apply no_ptr_none.
      * apply HN in Es. now rewrite Es.
  - (* copy with resource *)
    destruct (v r) as [x|] eqn:Er.
    + destruct (HV _ _ Er) as [b ->]. reflexivity.
    + apply HN in Er as Er'. rewrite Er'. destruct (v src) as [[res' l]|] eqn:Es.
      * destruct (HV _ _ Es) as [b Eb]. rewrite Eb. destruct (HS _ _ Eb) as (l' & E' & G).
        rewrite Es in E'. injection E' as -> ->.
        unfold construct_copy. destruct s as [h n f]. rewrite (do_read_good _ _ _ _ _ G).
        destruct (construct_range_ok (State h n f) res l') as (s' & E & Eh & En & Eg). rewrite E.
        eexists. split; [reflexivity|]. apply alloc_into; auto. now apply no_ptr_none.
      * apply HN in Es. now rewrite Es.
  - (* move *)
    destruct (v r) as [x|] eqn:Er.
    + destruct (HV _ _ Er) as [b ->]. reflexivity.
    + apply HN in Er as Er'. rewrite Er'. destruct (v src) as [[res l]|] eqn:Es.
      * destruct (HV _ _ Es) as [b Eb]. rewrite Eb. destruct (HS _ _ Eb) as (l' & E' & G).
        rewrite Es in E'. injection E' as -> ->.
        eexists. split; [reflexivity|]. unfold InvS. cbn [set_reg st_heap st_next st_regs].
        rewrite <- Es. apply inv_move; auto.
        -- now apply no_ptr_none.
        -- intros ->. congruence.
        -- right. eauto.
      * apply HN in Es. now rewrite Es.
  - (* copy assignment *)
    destruct (v dst) as [[rd ld]|] eqn:Ed.
    + destruct (HV _ _ Ed) as [bd Ebd]. rewrite Ebd. destruct (HS _ _ Ebd) as (l1 & E1 & G1).
      rewrite Ed in E1. injection E1 as -> ->.
      destruct (v src) as [[rs ls]|] eqn:Es.
      * destruct (HV _ _ Es) as [bs Ebs]. rewrite Ebs. destruct (HS _ _ Ebs) as (l2 & E2 & G2).
        rewrite Es in E2. injection E2 as -> ->.
        unfold construct_copy. destruct s as [h n f]. rewrite (do_read_good _ _ _ _ _ G2).
        destruct (construct_range_ok (State h n f) (b_res bd) l2) as (s1 & E & Eh & En & Eg). rewrite E.
        cbn [b_res b_data b_size]. eapply replace_ok; eauto.
      * apply HN in Es. now rewrite Es.
    + apply HN in Ed. now rewrite Ed.
  - (* move assignment *)
    unfold assign_move. destruct (v dst) as [[rd ld]|] eqn:Ed.
    + destruct (HV _ _ Ed) as [bd Ebd]. rewrite Ebd. destruct (HS _ _ Ebd) as (l1 & E1 & G1).
      rewrite Ed in E1. injection E1 as -> ->.
      destruct (v src) as [[rs ls]|] eqn:Es.
      * destruct (HV _ _ Es) as [bs Ebs]. rewrite Ebs. destruct (HS _ _ Ebs) as (l2 & E2 & G2).
        rewrite Es in E2. injection E2 as -> ->.
        destruct (Nat.eqb_spec (b_res bd) (b_res bs)) as [Hr|Hr].
        -- eexists. split; [reflexivity|]. unfold InvS. cbn [set_reg st_heap st_next st_regs].
           destruct (Nat.eq_dec dst src) as [->|Hne].
           ++ rewrite Ebs in Ebd. injection Ebd as <-. rewrite Es in Ed. injection Ed as <-.
              eapply inv_ext; [exact H| | |]; intros q; [reflexivity| |]; unfold upd;
                destruct (Nat.eqb_spec q src) as [->|]; auto.
              rewrite Ebs. now destruct bs.
           ++ apply inv_swap; auto.
        -- unfold construct_copy. destruct s as [h n f]. rewrite (do_read_good _ _ _ _ _ G2).
           destruct (construct_range_ok (State h n f) (b_res bd) l2) as (s1 & E & Eh & En & Eg). rewrite E.
           cbn [b_res b_data b_size]. eapply replace_ok; eauto.
      * apply HN in Es. now rewrite Es.
    + apply HN in Ed. now rewrite Ed.
  - (* release *)
    destruct (v r) as [[res l]|] eqn:Er.
    + destruct (HV _ _ Er) as [b Eb]. rewrite Eb. destruct (HS _ _ Eb) as (l' & E' & G).
      rewrite Er in E'. injection E' as -> ->.
      destruct (v t) as [x|] eqn:Et.
      * destruct (HV _ _ Et) as [b' ->]. reflexivity.
      * apply HN in Et as Et'. rewrite Et'. eexists. split; [reflexivity|].
        unfold InvS. cbn [set_reg st_heap st_next st_regs].
        rewrite <- Er. apply inv_move; auto.
        -- now apply no_ptr_none.
        -- intros ->. congruence.
        -- right. eauto.
    + apply HN in Er. now rewrite Er.
  - (* adopt *)
    destruct (v r) as [x|] eqn:Er.
    + destruct (HV _ _ Er) as [b ->]. reflexivity.
    + apply HN in Er as Er'. rewrite Er'. destruct (v t) as [x|] eqn:Et.
      * destruct (HV _ _ Et) as [b Eb]. rewrite Eb. eexists. split; [reflexivity|].
        unfold InvS. cbn [set_reg st_heap st_next st_regs].
        rewrite <- Et. apply inv_move; auto.
        -- now apply no_ptr_none.
        -- intros ->. congruence.
      * apply HN in Et. now rewrite Et.
  - (* destroy *)
    destruct (v r) as [[res l]|] eqn:Er.
    + destruct (HV _ _ Er) as [b Eb]. rewrite Eb. destruct (HS _ _ Eb) as (l' & E' & G).
      rewrite Er in E'. injection E' as -> ->. destruct G as [Gs Gd].
      unfold do_free. destruct (b_data b) as [p|] eqn:Ep.
      * rewrite Gd. unfold block_of at 1 2. cbn [bk_res bk_len]. rewrite Gs, !Nat.eqb_refl. cbn [andb].
        eexists. split; [reflexivity|]. unfold InvS. cbn [set_reg st_heap st_next st_regs].
        eapply inv_free; eauto.
      * eexists. split; [reflexivity|]. unfold InvS. cbn [set_reg st_heap st_next st_regs].
        apply inv_setnull; [exact H| |now left]. intros b' E'. congruence.
    + apply HN in Er. now rewrite Er.
Qed.

Lemma run_refines os : forall s v, InvS s v ->
  match spec_run v os with
  | None => run_ops sentinel eofc junk s os = None
  | Some v' => exists s', run_ops sentinel eofc junk s os = Some s' /\ InvS s' v'
  end.
Proof.
  induction os as [|o os IH]; intros s v H; cbn [spec_run run_ops].
  - exists s. auto.
  - pose proof (step_refines s v o H) as Hs. destruct (spec_step v o) as [v'|].
    + destruct Hs as (s' & -> & H'). apply IH. exact H'.
    + now rewrite Hs.
Qed.

Lemma init_inv : InvS init_state (fun _ => None).
Proof. split; cbn; [trivial|discriminate|congruence|reflexivity]. Qed.

(** Everything the caller can observe. *)
Lemma inv_observe s v r : InvS s v -> observe s r = match v r with None => None | Some (_, l) => Some l end.
Proof.
  intros H. unfold observe. destruct (st_regs s r) as [b|] eqn:Eb.
  - destruct (inv_some _ _ _ _ _ _ H Eb) as (l & E & G). rewrite E.
    destruct s as [h n f]. now apply do_read_good.
  - apply (inv_none _ _ _ _ _ H) in Eb. now rewrite Eb.
Qed.

Lemma buffer_ops_ok os v :
  spec_run (fun _ => None) os = Some v ->
  exists s, run_ops sentinel eofc junk init_state os = Some s /\
    (forall r, observe s r = match v r with None => None | Some (_, l) => Some l end) /\
    (forall r res l m, v r = Some (res, l) -> reader_mem s r = Some (Some m) ->
       m = l ++ repeat eofc (alloc_size sentinel (length l) - length l)) /\
    (forall r res l, v r = Some (res, l) -> l <> [] -> exists m, reader_mem s r = Some (Some m)) /\
    ((forall r, v r = None) -> forall p, st_heap s p = None).
Proof.
  intros Hv. pose proof (run_refines os init_state _ init_inv) as H. rewrite Hv in H.
  destruct H as (s & E & H). exists s. split; [exact E|]. split; [intros; now apply inv_observe|].
  split; [|split].
  - intros r res l m Er Em. unfold reader_mem in Em. destruct (st_regs s r) as [b|] eqn:Eb; [|discriminate].
    destruct (inv_some _ _ _ _ _ _ H Eb) as (l' & E' & [_ G]). rewrite Er in E'. injection E' as -> ->.
    destruct (b_data b) as [p|]; [|discriminate]. rewrite G in Em. injection Em as <-. reflexivity.
  - intros r res l Er Hl. unfold reader_mem.
    destruct (st_regs s r) as [b|] eqn:Eb; [|apply (inv_none _ _ _ _ _ H) in Eb; congruence].
    destruct (inv_some _ _ _ _ _ _ H Eb) as (l' & E' & [_ G]). rewrite Er in E'. injection E' as -> ->.
    destruct (b_data b) as [p|]; [|congruence]. rewrite G. eauto.
  - intros Hn p. destruct (st_heap s p) eqn:Ep; [|reflexivity]. exfalso.
    destruct (inv_leak _ _ _ _ H p ltac:(congruence)) as (r & b' & Eb & _).
    destruct (inv_some _ _ _ _ _ _ H Eb) as (l' & E' & _). rewrite Hn in E'. discriminate.
Qed.
End Machine.

(** ** Raw memory *)
Definition bytes_ok (l : list N) : Prop := Forall (fun b => b < 256) l.

Lemma fold_left_be bs : forall acc,
  fold_left (fun acc b => acc * 256 + b) bs acc
  = acc * 256 ^ N.of_nat (length bs) + fold_left (fun acc b => acc * 256 + b) bs 0.
Proof.
  induction bs as [|b bs IH]; intros acc; cbn [fold_left length].
  - rewrite N.pow_0_r. lia.
  - rewrite IH. rewrite (IH (0 * 256 + b)). rewrite Nat2N.inj_succ, N.pow_succ_r'. lia.
Qed.

Lemma host_be bs : host_value Big bs = be_value bs.
Proof. reflexivity. Qed.
Lemma host_le bs : host_value Little bs = le_value bs.
Proof.
  unfold host_value, le_value, be_value. rewrite fold_left_rev_right || idtac.
  induction bs as [|b bs IH]; [reflexivity|].
  cbn [fold_right rev]. rewrite fold_left_app. cbn [fold_left]. rewrite <- IH. lia.
Qed.

Definition value_of (e : endian) : list N -> N := match e with Big => be_value | Little => le_value end.

Lemma lor_parts hi lo k : lo < 2 ^ k -> N.lor (N.shiftl hi k) lo = hi * 2 ^ k + lo.
Proof. intros H. rewrite shiftl_mul. now apply lor_high_low. Qed.

Lemma swap_value_ok e width g : (width = 2 \/ width = 4)%nat -> bytes_ok g -> length g = width ->
  swap_value e width g = Some (value_of e g).
Proof.
  intros [->| ->] Hb Hl.
  - destruct g as [|a [|b [|? ?]]]; try discriminate.
    inversion Hb as [|? ? Ha Hb']; inversion Hb' as [|? ? Hb1 _]; subst.
    destruct e; cbn [swap_value value_of]; f_equal; unfold le_value, be_value; cbn [rev app fold_left].
    + rewrite N.shiftl_0_r, lor_parts by (change (2 ^ 8) with 256; lia).
      change (2 ^ 8) with 256; change (2 ^ 16) with 65536. rewrite N.mod_small by lia. lia.
    + rewrite N.shiftl_0_r, N.lor_comm, lor_parts by (change (2 ^ 8) with 256; lia).
      change (2 ^ 8) with 256; change (2 ^ 16) with 65536. rewrite N.mod_small by lia. lia.
  - destruct g as [|a [|b [|c [|d [|? ?]]]]]; try discriminate.
    inversion Hb as [|? ? Ha Hb']; inversion Hb' as [|? ? Hb1 Hb'']; inversion Hb'' as [|? ? Hc Hb3];
      inversion Hb3 as [|? ? Hd _]; subst.
    assert (E : forall x0 x1 x2 x3, x0 < 256 -> x1 < 256 -> x2 < 256 -> x3 < 256 ->
      N.lor (N.shiftl x3 24) (N.lor (N.shiftl x2 16) (N.lor (N.shiftl x1 8) x0))
      = x3 * 16777216 + (x2 * 65536 + (x1 * 256 + x0))).
    { intros x0 x1 x2 x3 H0 H1 H2 H3.
      rewrite (lor_parts x1 x0 8) by (change (2 ^ 8) with 256; lia).
      rewrite (lor_parts x2 _ 16) by (change (2 ^ 8) with 256; change (2 ^ 16) with 65536; lia).
      rewrite (lor_parts x3 _ 24) by (change (2 ^ 8) with 256; change (2 ^ 16) with 65536; change (2 ^ 24) with 16777216; lia).
      reflexivity. }
    destruct e; cbn [swap_value value_of]; f_equal; unfold le_value, be_value; cbn [rev app fold_left];
      rewrite N.shiftl_0_r.
    + replace (N.lor (N.lor (N.lor (N.shiftl a 24) (N.shiftl b 16)) (N.shiftl c 8)) d)
        with (N.lor (N.shiftl a 24) (N.lor (N.shiftl b 16) (N.lor (N.shiftl c 8) d)))
        by (rewrite !N.lor_assoc; reflexivity).
      rewrite E by assumption. change (2 ^ 32) with 4294967296. rewrite N.mod_small by lia. lia.
    + replace (N.lor (N.lor (N.lor a (N.shiftl b 8)) (N.shiftl c 16)) (N.shiftl d 24))
        with (N.lor (N.shiftl d 24) (N.lor (N.shiftl c 16) (N.lor (N.shiftl b 8) a))).
      2:{ rewrite (N.lor_comm (N.shiftl b 8) a), (N.lor_comm (N.shiftl c 16)), (N.lor_comm (N.shiftl d 24)). reflexivity. }
      rewrite E by assumption. change (2 ^ 32) with 4294967296. rewrite N.mod_small by lia. lia.
Qed.

Lemma groups_decodes f width value : (1 <= width)%nat -> forall fuel bytes,
  (length bytes <= fuel)%nat -> Nat.modulo (length bytes) width = 0%nat -> bytes_ok bytes ->
  (forall g, length g = width -> bytes_ok g -> f g = Some (value g)) ->
  exists units, map_opt f (groups fuel width bytes) = Some units /\ decodes value width bytes units.
Proof.
  intros Hw. induction fuel as [|fuel IH]; intros bytes Hl Hm Hb Hf.
  - destruct bytes; [|cbn in Hl; lia]. exists []. split; [reflexivity|constructor].
  - destruct bytes as [|x bytes]; [exists []; split; [reflexivity|constructor]|].
    set (bs := x :: bytes) in *. cbn [groups]. unfold bs at 1.
    assert (Hge : (width <= length bs)%nat).
    { destruct (Nat.le_gt_cases width (length bs)) as [?|Hlt]; [assumption|].
      rewrite Nat.mod_small in Hm by exact Hlt. subst bs. cbn in Hm. lia. }
    assert (Hg : length (firstn width bs) = width) by (rewrite firstn_length; lia).
    assert (Hbf : bytes_ok (firstn width bs) /\ bytes_ok (skipn width bs)).
    { rewrite <- (firstn_skipn width bs) in Hb. now apply Forall_app in Hb. }
    destruct (IH (skipn width bs)) as (units & E & D).
    + rewrite skipn_length. lia.
    + rewrite skipn_length. rewrite <- (Nat.mod_add (length bs - width) 1 width) by lia.
      now replace (length bs - width + 1 * width)%nat with (length bs) by lia.
    + apply Hbf.
    + exact Hf.
    + exists (value (firstn width bs) :: units). cbn [map_opt].
      rewrite (Hf _ Hg (proj1 Hbf)), E. split; [reflexivity|].
      rewrite <- (firstn_skipn width bs) at 1. now constructor.
Qed.

Lemma map_opt_some {A B} (f : A -> B) l : map_opt (fun x => Some (f x)) l = Some (map f l).
Proof. induction l as [|x l IH]; cbn [map_opt map]; [reflexivity|]. now rewrite IH. Qed.

Lemma make_buffer_decodes native e width bytes :
  (width = 1 \/ width = 2 \/ width = 4)%nat -> bytes_ok bytes ->
  Nat.modulo (length bytes) width = 0%nat ->
  exists units, make_buffer native e width bytes = Some units /\ decodes (value_of e) width bytes units.
Proof.
  intros Hw Hb Hm. unfold make_buffer. rewrite Hm. cbn [Nat.eqb negb].
  assert (Hhost : forall v, (forall g, length g = width -> bytes_ok g -> host_value native g = v g) ->
    exists units, Some (map (host_value native) (groups (length bytes) width bytes)) = Some units
      /\ decodes v width bytes units).
  { intros v Hv. rewrite <- map_opt_some. apply groups_decodes; auto; [lia|].
    intros g Hg Hgb. f_equal. auto. }
  destruct (Nat.eqb_spec width 1) as [->|Hw1]; cbn [orb].
  - apply Hhost. intros g Hg _. destruct g as [|x [|? ?]]; try discriminate.
    destruct native, e; cbn; unfold le_value, be_value; cbn; lia.
  - assert (Hw24 : (width = 2 \/ width = 4)%nat) by lia.
    destruct native, e; cbn [value_of]; try (apply Hhost; intros; first [apply host_be|apply host_le]).
    + apply groups_decodes; auto; [lia|]. intros g Hg Hgb. now apply (swap_value_ok Little).
    + apply groups_decodes; auto; [lia|]. intros g Hg Hgb. now apply (swap_value_ok Big).
Qed.
Lemma make_buffer_pre native e width bytes :
  (width = 1 \/ width = 2 \/ width = 4)%nat ->
  (make_buffer native e width bytes = None -> bytes_ok bytes -> Nat.modulo (length bytes) width <> 0%nat).
Proof.
  intros Hw Hn Hb Hm. destruct (make_buffer_decodes native e width bytes Hw Hb Hm) as (u & E & _). congruence.
Qed.

(** A group decoding is unique. *)
Lemma decodes_unique value width : (1 <= width)%nat -> forall bytes u1 u2,
  decodes value width bytes u1 -> decodes value width bytes u2 -> u1 = u2.
Proof.
  intros Hw bytes u1 u2 H1. revert u2. induction H1 as [|g rest units Hg H1 IH]; intros u2 H2.
  - inversion H2 as [|g rest units Hg Hd E1]; [reflexivity|]. destruct g; [cbn in Hg; lia|discriminate].
  - inversion H2 as [E1|g' rest' units' Hg' Hd E1].
    + destruct g; [cbn in Hg; lia|discriminate].
    + assert (g' = g /\ rest' = rest) as [-> ->].
      { assert (Ef : firstn width (g' ++ rest') = firstn width (g ++ rest)) by now rewrite E1.
        assert (Es : skipn width (g' ++ rest') = skipn width (g ++ rest)) by now rewrite E1.
        rewrite <- Hg' in Ef at 1. rewrite <- Hg' in Es at 1. rewrite <- Hg in Ef, Es.
        now rewrite !firstn_app_exact in Ef; rewrite !skipn_app_exact in Es. }
      f_equal. now apply IH.
Qed.

(** ** Byte-order marks *)
Definition bom_spec (width : nat) (make : list N -> option (list N)) (marks : list (list N * endian)) : Prop :=
  (forall mark e rest, In (mark, e) marks -> bytes_ok (mark ++ rest) ->
     Nat.modulo (length (mark ++ rest)) width = 0%nat ->
     exists units, make (mark ++ rest) = Some units /\ decodes (value_of e) width rest units) /\
  (forall bytes, bytes_ok bytes -> Nat.modulo (length bytes) width = 0%nat ->
     (forall mark e, In (mark, e) marks -> firstn (length mark) bytes <> mark) ->
     exists units, make bytes = Some units /\ decodes (value_of Big) width bytes units).

Definition utf8_marks : list (list N * endian) := [([0xEF; 0xBB; 0xBF], Big)].
Definition utf16_marks : list (list N * endian) := [([0xFE; 0xFF], Big); ([0xFF; 0xFE], Little)].
Definition utf32_marks : list (list N * endian) :=
  [([0x00; 0x00; 0xFE; 0xFF], Big); ([0xFF; 0xFE; 0x00; 0x00], Little)].

Lemma bytes_ok_app a b : bytes_ok (a ++ b) -> bytes_ok a /\ bytes_ok b.
Proof. apply Forall_app. Qed.

Lemma mod_drop a b w : (w <> 0 -> a mod w = 0 -> (a + b) mod w = 0 -> b mod w = 0)%nat.
Proof.
  intros Hw Ha Hab. rewrite Nat.add_mod, Ha, Nat.add_0_l, Nat.mod_mod in Hab by exact Hw. exact Hab.
Qed.

Lemma bom8_ok native : bom_spec 1 (make_buffer_bom8 native) utf8_marks.
Proof.
  split.
  - intros mark e rest [H|[]] Hb _. injection H as <- <-.
    apply bytes_ok_app in Hb as [_ Hb].
    cbn [app make_buffer_bom8]. rewrite !N.eqb_refl. cbn [andb].
    apply make_buffer_decodes; [lia|exact Hb|apply Nat.mod_1_r].
  - intros bytes Hb Hm Hno.
    assert (E : make_buffer_bom8 native bytes = make_buffer native Big 1 bytes).
    { destruct bytes as [|a [|b [|c rest]]]; try reflexivity. cbn [make_buffer_bom8].
      destruct ((a =? 0xEF) && (b =? 0xBB) && (c =? 0xBF)) eqn:E; [|reflexivity].
      exfalso. apply (Hno [0xEF; 0xBB; 0xBF] Big); [now left|]. cbn [length firstn].
      repeat f_equal; lia. }
    rewrite E. apply make_buffer_decodes; auto; lia.
Qed.

Lemma bom16_ok native : bom_spec 2 (make_buffer_bom16 native) utf16_marks.
Proof.
  split.
  - intros mark e rest H Hb Hm. rewrite app_length in Hm. apply bytes_ok_app in Hb as [_ Hb].
    assert (Hmr : Nat.modulo (length rest) 2 = 0%nat).
    { apply (mod_drop (length mark)); [lia| |exact Hm]. destruct H as [H|[H|[]]]; injection H as <- <-; reflexivity. }
    destruct H as [H|[H|[]]]; injection H as <- <-; cbn [app make_buffer_bom16].
    + replace (0xFE =? 0xFF) with false by reflexivity. rewrite !N.eqb_refl. cbn [andb].
      apply make_buffer_decodes; auto.
    + rewrite !N.eqb_refl. cbn [andb]. apply make_buffer_decodes; auto.
  - intros bytes Hb Hm Hno.
    assert (E : make_buffer_bom16 native bytes = make_buffer native Big 2 bytes).
    { destruct bytes as [|a [|b rest]]; try reflexivity. cbn [make_buffer_bom16].
      destruct ((a =? 0xFF) && (b =? 0xFE)) eqn:E1.
      { exfalso. apply (Hno [0xFF; 0xFE] Little); [right; now left|]. cbn [length firstn]. repeat f_equal; lia. }
      destruct ((a =? 0xFE) && (b =? 0xFF)) eqn:E2; [|reflexivity].
      exfalso. apply (Hno [0xFE; 0xFF] Big); [now left|]. cbn [length firstn]. repeat f_equal; lia. }
    rewrite E. apply make_buffer_decodes; auto.
Qed.

Lemma bom32_ok native :
  (forall mark e rest, In (mark, e) utf32_marks -> bytes_ok (mark ++ rest) ->
     Nat.modulo (length (mark ++ rest)) 4 = 0%nat ->
     exists units, make_buffer_bom32 native (mark ++ rest) = Some units /\ decodes (value_of e) 4 rest units) /\
  (forall bytes, bytes_ok bytes -> Nat.modulo (length bytes) 4 = 0%nat ->
     (forall mark e, In (mark, e) utf32_marks -> firstn (length mark) bytes <> mark) ->
     firstn 3 bytes <> [0x00; 0x00; 0xFE] ->
     exists units, make_buffer_bom32 native bytes = Some units /\ decodes (value_of Big) 4 bytes units).
Proof.
  split.
  - intros mark e rest H Hb Hm. rewrite app_length in Hm. apply bytes_ok_app in Hb as [_ Hb].
    assert (Hmr : Nat.modulo (length rest) 4 = 0%nat).
    { apply (mod_drop (length mark)); [lia| |exact Hm]. destruct H as [H|[H|[]]]; injection H as <- <-; reflexivity. }
    destruct H as [H|[H|[]]]; injection H as <- <-; cbn [app make_buffer_bom32].
    + replace (0x00 =? 0xFF) with false by reflexivity. replace (0xFF =? 0) with false by reflexivity.
      rewrite !N.eqb_refl. cbn [andb negb]. apply make_buffer_decodes; auto.
    + rewrite !N.eqb_refl. cbn [andb]. apply make_buffer_decodes; auto.
  - intros bytes Hb Hm Hno H3.
    assert (E : make_buffer_bom32 native bytes = make_buffer native Big 4 bytes).
    { destruct bytes as [|a [|b [|c [|d rest]]]]; try reflexivity. cbn [make_buffer_bom32].
      destruct ((a =? 0xFF) && (b =? 0xFE) && (c =? 0x00) && (d =? 0x00)) eqn:E1.
      { exfalso. apply (Hno [0xFF; 0xFE; 0x00; 0x00] Little); [right; now left|]. cbn [length firstn]. repeat f_equal; lia. }
      destruct ((a =? 0x00) && (b =? 0x00) && (c =? 0xFE) && negb (d =? 0)) eqn:E2; [|reflexivity].
      exfalso. apply H3. cbn [firstn]. repeat f_equal; lia. }
    rewrite E. apply make_buffer_decodes; auto.
Qed.

Lemma bom32_refuted native : ~ bom_spec 4 (make_buffer_bom32 native) utf32_marks.
Proof.
  intros [_ H]. destruct (H [0x00; 0x00; 0xFE; 0x01]) as (units & E & D).
  - repeat constructor.
  - reflexivity.
  - intros mark e [Hm|[Hm|[]]]; injection Hm as <- <-; discriminate.
  - destruct native; vm_compute in E; injection E as <-; inversion D as [E1|]; discriminate.
Qed.

Lemma until_eof_prefix eofv units : 
  exists rest, units = until_eof_units eofv units ++ rest /\
    Forall (fun u => eofv u = false) (until_eof_units eofv units) /\
    (rest = [] \/ exists u r, rest = u :: r /\ eofv u = true).
Proof.
  induction units as [|u r IH]; cbn [until_eof_units].
  - exists []. repeat split; auto.
  - destruct (eofv u) eqn:E.
    + exists (u :: r). repeat split; [constructor|]. right. eauto.
    + destruct IH as (rest & E1 & E2 & E3). exists rest. split; [cbn; congruence|]. split; [now constructor|exact E3].
Qed.
