(** Proofs about literals, tries and case folding readers. *)
From Verif Require Import Prelude CodecModel SwarSpec LitModel LitSpec.
From Coq Require Import Permutation.
Open Scope N_scope.

(** ** Single literals on range readers *)
Lemma raw_peek E inp p :
  o_peek (raw E inp) p = match skipn p inp with [] => leof E | c :: _ => c end.
Proof.
  cbn. revert p. induction inp as [|x inp IH]; intros [|p]; cbn; auto.
Qed.

Lemma common_bounds cs l : (common cs l <= length cs)%nat /\ (common cs l <= length l)%nat.
Proof.
  revert l; induction cs as [|c cs IH]; intros [|x l]; cbn [common length]; try lia.
  destruct (c =? x); [specialize (IH l)|]; lia.
Qed.

Lemma common_full cs l : common cs l = length cs <-> starts_with cs l.
Proof.
  revert l; induction cs as [|c cs IH]; intros l; cbn [common length].
  - split; [exists l; reflexivity|reflexivity].
  - destruct l as [|x l].
    + split; [discriminate|intros [r Hr]; discriminate].
    + destruct (N.eqb_spec c x) as [->|Hne].
      * specialize (IH l). split.
        -- intros H. injection H as H. apply IH in H. destruct H as [r ->]. now exists r.
        -- intros [r Hr]. injection Hr as Hr. f_equal. apply IH. now exists r.
      * split; [discriminate|]. intros [r Hr]. injection Hr. congruence.
Qed.

Lemma match_units_raw E inp : forall cs p, no_eof E cs ->
  match_units (raw E inp) cs p
  = ((common cs (skipn p inp) =? length cs)%nat, (p + common cs (skipn p inp))%nat).
Proof.
  induction cs as [|c cs IH]; intros p Hn; cbn [match_units common length].
  - f_equal; lia.
  - rewrite raw_peek. destruct (skipn p inp) as [|x r] eqn:Er.
    + destruct (N.eqb_spec (leof E) c) as [E1|_]; [exfalso; apply Hn; now left|].
      cbn. f_equal. lia.
    + rewrite (N.eqb_sym x c). destruct (c =? x).
      * cbn [o_bump raw]. rewrite IH by (intros H; apply Hn; now right).
        assert (E2 : skipn (S p) inp = r).
        { replace (S p) with (p + 1)%nat by lia. rewrite <- (skipn_skipn inp 1 p), Er. reflexivity. }
        rewrite E2. cbn [Nat.eqb]. f_equal; lia.
      * cbn. f_equal; lia.
Qed.

Lemma lit_try_raw E inp cs p : no_eof E cs ->
  lit_try (raw E inp) cs p
  = ((common cs (skipn p inp) =? length cs)%nat, (p + common cs (skipn p inp))%nat).
Proof. intros H. unfold lit_try. rewrite match_units_raw by exact H. reflexivity. Qed.

(** ** Tries *)
Definition child (t : trie) (n : nat) (c : N) : option nat :=
  find_transition (skipn n (transition t)) n c.

Fixpoint walk (t : trie) (n : nat) (s : list N) : option nat :=
  match s with
  | [] => Some n
  | c :: s' => match child t n c with Some m => walk t m s' | None => None end
  end.

Definition wf (t : trie) : Prop :=
  length (node_char_class t) = node_count t /\
  node_count t = S (length (transition t)) /\
  (forall i ch fr to, nth_error (transition t) i = Some (ch, fr, to) -> to = S i /\ (fr <= i)%nat) /\
  (forall i j ch fr to to', nth_error (transition t) i = Some (ch, fr, to) ->
     nth_error (transition t) j = Some (ch, fr, to') -> i = j).

Lemma find_transition_in ts n c to : find_transition ts n c = Some to -> In (c, n, to) ts.
Proof.
  induction ts as [|[[ch fr] t'] ts IH]; cbn [find_transition]; [discriminate|].
  destruct (Nat.eqb_spec fr n) as [->|]; destruct (N.eqb_spec ch c) as [->|]; cbn [andb];
    intros H; try (right; auto; fail). injection H as ->. now left.
Qed.

Lemma find_transition_none ts n c : find_transition ts n c = None -> forall to, ~ In (c, n, to) ts.
Proof.
  induction ts as [|[[ch fr] t'] ts IH]; cbn [find_transition]; intros H to; [easy|].
  destruct (Nat.eqb_spec fr n) as [->|]; destruct (N.eqb_spec ch c) as [->|]; cbn [andb] in H;
    try discriminate; intros [E|E]; try (injection E; congruence); now apply (IH H to).
Qed.

Lemma in_skipn {A} (x : A) l n : In x (skipn n l) <-> exists i, (n <= i)%nat /\ nth_error l i = Some x.
Proof.
  revert n. induction l as [|y l IH]; intros n.
  - rewrite skipn_nil. split; [easy|]. intros (i & _ & E). destruct i; discriminate.
  - destruct n as [|n]; cbn [skipn].
    + split.
      * intros H. apply In_nth_error in H. destruct H as [i Hi]. exists i. split; [lia|exact Hi].
      * intros (i & _ & E). eapply nth_error_In; exact E.
    + rewrite IH. split.
      * intros (i & Hi & E). exists (S i). split; [lia|exact E].
      * intros ([|i] & Hi & E); [lia|]. exists i. split; [lia|exact E].
Qed.

Lemma child_in t n c m : wf t -> (child t n c = Some m <-> In (c, n, m) (transition t)).
Proof.
  intros (_ & _ & Hto & Hu). unfold child. split.
  - intros H. apply find_transition_in, in_skipn in H. destruct H as (i & _ & E).
    eapply nth_error_In; exact E.
  - intros H. apply In_nth_error in H. destruct H as [i Hi].
    destruct (find_transition (skipn n (transition t)) n c) as [m'|] eqn:E.
    + apply find_transition_in, in_skipn in E. destruct E as (j & _ & Hj).
      pose proof (Hu _ _ _ _ _ _ Hi Hj) as <-. congruence.
    + exfalso. eapply find_transition_none; [exact E|]. apply in_skipn. exists i. split; [|exact Hi].
      apply (Hto _ _ _ _ Hi).
Qed.

Lemma child_bounds t n c m : wf t -> child t n c = Some m -> (n < m < node_count t)%nat.
Proof.
  intros Hwf H. apply (child_in t n c m Hwf) in H. apply In_nth_error in H. destruct H as [i Hi].
  destruct Hwf as (_ & Hc & Hto & _). destruct (Hto _ _ _ _ Hi) as [-> Hle].
  assert (i < length (transition t))%nat by (apply nth_error_Some; congruence). lia.
Qed.

Lemma child_inj t n c m n' c' : wf t -> child t n c = Some m -> child t n' c' = Some m ->
  n = n' /\ c = c'.
Proof.
  intros Hwf H H'. apply (child_in t _ _ _ Hwf) in H, H'. apply In_nth_error in H, H'.
  destruct H as [i Hi], H' as [j Hj]. destruct Hwf as (_ & _ & Hto & _).
  destruct (Hto _ _ _ _ Hi) as [E1 _], (Hto _ _ _ _ Hj) as [E2 _].
  assert (i = j) by lia. subst j. rewrite Hi in Hj. injection Hj. auto.
Qed.

Lemma walk_app t : forall s n s', walk t n (s ++ s') = match walk t n s with Some m => walk t m s' | None => None end.
Proof.
  induction s as [|c s IH]; intros n s'; cbn [walk app]; [reflexivity|].
  destruct (child t n c); [apply IH|reflexivity].
Qed.

Lemma walk_bounds t : wf t -> forall s n m, walk t n s = Some m -> (n < node_count t)%nat ->
  (n + length s <= m < node_count t)%nat.
Proof.
  intros Hwf. induction s as [|c s IH]; intros n m H Hn; cbn [walk length] in *.
  - injection H as <-. lia.
  - destruct (child t n c) as [k|] eqn:E; [|discriminate].
    pose proof (child_bounds t n c k Hwf E) as Hk. specialize (IH k m H). lia.
Qed.

Lemma walk_inj t : wf t -> forall s s' m, walk t 0 s = Some m -> walk t 0 s' = Some m -> s = s'.
Proof.
  intros Hwf. assert (H0 : (0 < node_count t)%nat) by (destruct Hwf as (_ & -> & _); lia).
  induction s as [|c s IH] using rev_ind; intros s' m H H'.
  - cbn in H. injection H as <-. pose proof (walk_bounds t Hwf _ _ _ H' H0) as Hb.
    destruct s'; [reflexivity|cbn in Hb; lia].
  - rewrite walk_app in H. destruct (walk t 0 s) as [k|] eqn:Ek; [|discriminate].
    cbn in H. destruct (child t k c) as [k'|] eqn:Ec; [|discriminate]. injection H as ->.
    destruct s' as [|c' s' _] using rev_ind.
    + cbn in H'. injection H' as <-. pose proof (child_bounds t _ _ _ Hwf Ec). lia.
    + rewrite walk_app in H'. destruct (walk t 0 s') as [k2|] eqn:Ek2; [|discriminate].
      cbn in H'. destruct (child t k2 c') as [k2'|] eqn:Ec2; [|discriminate]. injection H' as ->.
      destruct (child_inj t _ _ _ _ _ Hwf Ec Ec2) as [-> ->].
      f_equal. now apply (IH s' k2).
Qed.

(** *** Insertion *)
Lemma empty_wf : wf empty_trie.
Proof.
  split; [reflexivity|]. split; [reflexivity|]. split.
  - intros [|i] ch fr to H; discriminate.
  - intros [|i] j ch fr to to' H; discriminate.
Qed.

Lemma insert_spec t n c t' to : wf t -> (n < node_count t)%nat -> trie_insert t n c = (t', to) ->
  wf t' /\ child t' n c = Some to /\ (to < node_count t')%nat /\ (node_count t <= node_count t')%nat /\
  (forall m d k, child t m d = Some k -> child t' m d = Some k) /\
  (forall m, nth m (node_value t') None = nth m (node_value t) None) /\
  (forall m, nth m (node_char_class t') None = nth m (node_char_class t) None) /\
  (forall m d k, child t' m d = Some k -> (child t m d = Some k \/ (m = n /\ d = c /\ k = to))) /\
  (forall x f g, In (x, f, g) (transition t') -> In (x, f, g) (transition t) \/ x = c).
Proof.
  intros Hwf Hn H. unfold trie_insert in H.
  destruct (find_transition (skipn n (transition t)) n c) as [k|] eqn:Ef.
  - injection H as <- <-. assert (Ec : child t n c = Some k) by exact Ef.
    pose proof (child_bounds t n c k Hwf Ec).
    split; [exact Hwf|]. split; [exact Ec|]. split; [lia|]. split; [lia|]. repeat split; auto.
  - injection H as <- <-. destruct Hwf as (Hc & Hcount & Hto & Hu).
    assert (Hwf' : wf (Trie (node_value t ++ [None]) (node_char_class t ++ [None])
                         (transition t ++ [(c, n, node_count t)]))).
    { split; [cbn; unfold node_count in *; rewrite ?app_length; cbn in *; rewrite ?app_length; cbn; lia|].
      split; [unfold node_count in *; cbn; rewrite !app_length; cbn; lia|].
      assert (Hi : forall i ch fr g, nth_error (transition t ++ [(c, n, node_count t)]) i = Some (ch, fr, g) ->
        nth_error (transition t) i = Some (ch, fr, g) \/
        (i = length (transition t) /\ ch = c /\ fr = n /\ g = node_count t)).
      { intros i ch fr g Hi. destruct (Nat.lt_ge_cases i (length (transition t))) as [Hlt|Hge].
        - rewrite nth_error_app1 in Hi by exact Hlt. now left.
        - rewrite nth_error_app2 in Hi by exact Hge.
          destruct (i - length (transition t))%nat as [|j] eqn:Ej; [|destruct j; discriminate].
          cbn in Hi. injection Hi as <- <- <-. right. repeat split; lia. }
      split; cbn [transition].
      - intros i ch fr g H. destruct (Hi _ _ _ _ H) as [H'|(-> & -> & -> & ->)]; [now apply (Hto _ _ _ _ H')|lia].
      - assert (Hnew : forall i g, nth_error (transition t) i = Some (c, n, g) -> False).
        { intros i g H'. eapply find_transition_none; [exact Ef|]. apply in_skipn. exists i. split; [|exact H'].
          apply (Hto _ _ _ _ H'). }
        intros i j ch fr g g' H H'.
        destruct (Hi _ _ _ _ H) as [H1|(-> & -> & -> & ->)]; destruct (Hi _ _ _ _ H') as [H2|(-> & E2 & E3 & E4)].
        + eauto.
        + subst. exfalso. eapply Hnew; eauto.
        + exfalso. eapply Hnew; eauto.
        + reflexivity. }
    assert (Hwft : wf t) by (split; auto).
    split; [exact Hwf'|].
    assert (Hin : forall m d k, child (Trie (node_value t ++ [None]) (node_char_class t ++ [None])
                         (transition t ++ [(c, n, node_count t)])) m d = Some k <->
                   (child t m d = Some k \/ (m = n /\ d = c /\ k = node_count t))).
    { intros m d k. rewrite (child_in _ m d k Hwf'), (child_in t m d k Hwft). cbn [transition].
      rewrite in_app_iff. cbn. split.
      - intros [H|[H|[]]]; [now left|]. injection H as -> -> ->. now right.
      - intros [H|(-> & -> & ->)]; auto. }
    split; [apply Hin; auto|].
    split; [unfold node_count; cbn; rewrite app_length; cbn; lia|].
    split; [unfold node_count; cbn; rewrite app_length; cbn; lia|].
    assert (Hnth : forall A (l : list (option A)) m, nth m (l ++ [None]) None = nth m l None).
    { intros A l. induction l as [|x l IH]; intros [|m]; cbn; auto. destruct m; reflexivity. }
    repeat split; try (intros; cbn; now apply Hnth).
    + intros m d k H. apply Hin. now left.
    + intros m d k H. now apply Hin.
    + intros x f g H. cbn in H. apply in_app_iff in H. destruct H as [H|[H|[]]]; [now left|].
      injection H; auto.
Qed.

Lemma insert_all_spec : forall cs t n t' to, wf t -> (n < node_count t)%nat ->
  trie_insert_all t n cs = (t', to) ->
  wf t' /\ walk t' n cs = Some to /\ (to < node_count t')%nat /\ (node_count t <= node_count t')%nat /\
  (forall m d k, child t m d = Some k -> child t' m d = Some k) /\
  (forall m, nth m (node_value t') None = nth m (node_value t) None) /\
  (forall m, nth m (node_char_class t') None = nth m (node_char_class t) None) /\
  (forall x f g, In (x, f, g) (transition t') -> In (x, f, g) (transition t) \/ In x cs).
Proof.
  induction cs as [|c cs IH]; intros t n t' to Hwf Hn H; cbn [trie_insert_all] in H.
  - injection H as <- <-. split; [exact Hwf|]. repeat split; auto.
  - destruct (trie_insert t n c) as [t1 n1] eqn:E1.
    destruct (insert_spec t n c t1 n1 Hwf Hn E1) as (W1 & C1 & L1 & G1 & P1 & V1 & K1 & _ & I1).
    destruct (IH t1 n1 t' to W1 L1 H) as (W2 & C2 & L2 & G2 & P2 & V2 & K2 & I2).
    split; [exact W2|]. split; [cbn [walk]; rewrite (P2 _ _ _ C1); exact C2|].
    split; [exact L2|]. split; [lia|]. split; [auto|].
    split; [intros m; rewrite V2; auto|]. split; [intros m; rewrite K2; auto|].
    intros x f g Hx. destruct (I2 _ _ _ Hx) as [Hx1|Hx1]; [|right; now right].
    destruct (I1 _ _ _ Hx1) as [Hx2| ->]; [now left|right; now left].
Qed.

Lemma walk_mono t t' : (forall m d k, child t m d = Some k -> child t' m d = Some k) ->
  forall s n m, walk t n s = Some m -> walk t' n s = Some m.
Proof.
  intros H. induction s as [|c s IH]; intros n m Hw; cbn [walk] in *; [exact Hw|].
  destruct (child t n c) as [k|] eqn:E; [|discriminate]. rewrite (H _ _ _ E). now apply IH.
Qed.

(** The contents of a trie: value and class stored for a string. *)
Definition val (t : trie) (s : list N) : option N :=
  match walk t 0 s with Some n => nth n (node_value t) None | None => None end.
Definition kls (t : trie) (s : list N) : option nat :=
  match walk t 0 s with Some n => nth n (node_char_class t) None | None => None end.

Lemma nth_set_nth {A} (l : list (option A)) n m x : (n < length l)%nat ->
  nth m (set_nth n x l) None = if (m =? n)%nat then x else nth m l None.
Proof.
  revert n m. induction l as [|y l IH]; intros n m Hn; cbn in Hn; [lia|].
  destruct n as [|n], m as [|m]; cbn; auto. apply IH. lia.
Qed.

Lemma length_set_nth {A} (l : list A) n x : length (set_nth n x l) = length l.
Proof. revert n; induction l as [|y l IH]; intros [|n]; cbn; auto. Qed.

Lemma old_walk_none t t' :
  wf t -> wf t' ->
  (forall m d k, child t m d = Some k -> child t' m d = Some k) ->
  (forall m, nth m (node_value t') None = nth m (node_value t) None) ->
  forall s, val t' s = val t s.
Proof.
  intros W W' P V s. unfold val. destruct (walk t 0 s) as [n|] eqn:E.
  - rewrite (walk_mono t t' P _ _ _ E). apply V.
  - destruct (walk t' 0 s) as [n'|] eqn:E'; [|reflexivity]. rewrite V.
    destruct (Nat.lt_ge_cases n' (node_count t)) as [Hlt|Hge].
    + (* an old node is reached by an old string only *)
      exfalso. clear V.
      assert (Hold : exists s0, walk t 0 s0 = Some n').
      { clear E' E s. revert Hlt. induction n' as [n' IH] using (well_founded_induction lt_wf). intros Hlt.
        destruct n' as [|i]; [exists []; reflexivity|].
        destruct W as (Hk & Hc & Hto & Hu). assert (Hi : (i < length (transition t))%nat) by lia.
        destruct (nth_error (transition t) i) as [[[ch fr] to]|] eqn:Ei; [|apply nth_error_None in Ei; lia].
        destruct (Hto _ _ _ _ Ei) as [-> Hfr].
        destruct (IH fr ltac:(lia) ltac:(lia)) as [s0 Hs0]. exists (s0 ++ [ch]).
        rewrite walk_app, Hs0. cbn [walk].
        assert (Hch : child t fr ch = Some (S i)).
        { apply child_in; [split; auto|]. eapply nth_error_In; exact Ei. }
        now rewrite Hch. }
      destruct Hold as [s0 Hs0]. pose proof (walk_mono t t' P _ _ _ Hs0) as Hs0'.
      rewrite (walk_inj t' W' _ _ _ E' Hs0') in E. congruence.
    + apply nth_overflow. exact Hge.
Qed.

Lemma old_walk_none_k t t' :
  wf t -> wf t' ->
  (forall m d k, child t m d = Some k -> child t' m d = Some k) ->
  (forall m, nth m (node_char_class t') None = nth m (node_char_class t) None) ->
  forall s, kls t' s = kls t s.
Proof.
  intros W W' P V s.
  (* reuse the lemma on values by storing the classes as values *)
  assert (H : forall u : trie, wf u -> forall f : nat -> N,
    let u' := Trie (map (option_map f) (node_char_class u)) (node_char_class u) (transition u) in
    wf u' /\ forall n s', walk u' n s' = walk u n s').
  { intros u Wu f u'. split.
    - destruct Wu as (Hk & Hc & Hto & Hu). repeat split; auto; unfold node_count in *; cbn in *;
        try rewrite map_length; try lia; try (intros; now eapply Hto; eauto); try (eapply Hto; eauto).
    - intros n s'. revert n. induction s' as [|c s' IH]; intros n; cbn; [reflexivity|].
      unfold child; cbn. destruct (find_transition _ _ _); auto. }
  destruct (H t W N.of_nat) as [W1 E1], (H t' W' N.of_nat) as [W2 E2].
  set (u := Trie (map (option_map N.of_nat) (node_char_class t)) (node_char_class t) (transition t)) in *.
  set (u' := Trie (map (option_map N.of_nat) (node_char_class t')) (node_char_class t') (transition t')) in *.
  assert (Hm : forall l m, nth m (map (option_map N.of_nat) l) None = option_map N.of_nat (nth m l None)).
  { intros l. induction l as [|y l IH]; intros [|m]; cbn; auto. }
  assert (Hv : val u' s = val u s).
  { apply old_walk_none; auto. intros m. unfold u, u'; cbn. rewrite !Hm. now rewrite V. }
  unfold val in Hv. rewrite E1, E2 in Hv. unfold kls.
  assert (Hinj : forall a b : option nat, option_map N.of_nat a = option_map N.of_nat b -> a = b).
  { intros [a|] [b|] Hab; cbn in Hab; try discriminate; [|reflexivity]. injection Hab as Hab. f_equal. lia. }
  apply Hinj. destruct (walk t' 0 s), (walk t 0 s); cbn [node_value] in Hv; unfold u, u' in Hv; cbn in Hv;
    rewrite ?Hm in Hv; exact Hv.
Qed.

(** *** The whole trie *)
(** Value and class of the last literal spelled [s], as the builders leave them. *)
Definition last_val (ls : list literal) (s : list N) (d : option N) : option N :=
  fold_left (fun acc l => if list_eq_dec N.eq_dec (l_units l) s then Some (l_value l) else acc) ls d.
Fixpoint last_kls (cls : nat) (ls : list literal) (s : list N) (d : option nat) : option nat :=
  match ls with
  | [] => d
  | l :: ls' =>
    match l_class l with
    | None => last_kls cls ls' s d
    | Some _ => last_kls (S cls) ls' s (if list_eq_dec N.eq_dec (l_units l) s then Some cls else d)
    end
  end.

Lemma walk_retag t v k : forall s n, walk (Trie v k (transition t)) n s = walk t n s.
Proof.
  induction s as [|c s IH]; intros n; cbn [walk]; [reflexivity|].
  unfold child; cbn [transition]. destruct (find_transition _ _ _); auto.
Qed.

Lemma build_spec : forall ls t cls, wf t ->
  let t' := build_from t cls ls in
  wf t' /\ (forall s, val t' s = last_val ls s (val t s)) /\
  (forall s, kls t' s = last_kls cls ls s (kls t s)) /\
  (forall s, walk t 0 s <> None -> walk t' 0 s <> None) /\
  (forall l, In l ls -> walk t' 0 (l_units l) <> None) /\
  (forall x f g, In (x, f, g) (transition t') ->
     In (x, f, g) (transition t) \/ exists l, In l ls /\ In x (l_units l)).
Proof.
  induction ls as [|l ls IH]; intros t cls Hwf; cbn [build_from].
  - split; [exact Hwf|]. repeat split; auto; easy.
  - destruct (trie_insert_all t 0 (l_units l)) as [t1 n] eqn:E1.
    assert (H0 : (0 < node_count t)%nat) by (destruct Hwf as (_ & -> & _); lia).
    destruct (insert_all_spec _ _ _ _ _ Hwf H0 E1) as (W1 & C1 & L1 & G1 & P1 & V1 & K1 & I1).
    set (kc := match l_class l with Some _ => set_nth n (Some cls) (node_char_class t1) | None => node_char_class t1 end).
    assert (Et3 : (let t2 := match l_class l with None => t1 | Some _ => Trie (node_value t1) (set_nth n (Some cls) (node_char_class t1)) (transition t1) end in
                  Trie (set_nth n (Some (l_value l)) (node_value t2)) (node_char_class t2) (transition t2))
                 = Trie (set_nth n (Some (l_value l)) (node_value t1)) kc (transition t1)).
    { unfold kc. destruct (l_class l); reflexivity. }
    cbn zeta in Et3. rewrite Et3. clear Et3.
    set (t3 := Trie (set_nth n (Some (l_value l)) (node_value t1)) kc (transition t1)).
    assert (W3 : wf t3).
    { destruct W1 as (Hk & Hc & Hto & Hu). unfold t3, wf, node_count, kc in *. cbn.
      rewrite !length_set_nth. repeat split; auto; try (eapply Hto; eauto).
      destruct (l_class l); rewrite ?length_set_nth; lia. }
    assert (Hval : forall s, val t3 s = if list_eq_dec N.eq_dec (l_units l) s then Some (l_value l) else val t s).
    { intros s. rewrite <- (old_walk_none t t1 Hwf W1 P1 V1 s). unfold val, t3. rewrite walk_retag.
      cbn [node_value].
      destruct (walk t1 0 s) as [m|] eqn:Em.
      - rewrite nth_set_nth by exact L1. destruct (Nat.eqb_spec m n) as [->|Hne].
        + destruct (list_eq_dec N.eq_dec (l_units l) s) as [|Hns]; [reflexivity|].
          exfalso. apply Hns. exact (walk_inj t1 W1 _ _ _ C1 Em).
        + destruct (list_eq_dec N.eq_dec (l_units l) s) as [Es|]; [|reflexivity].
          subst s. congruence.
      - destruct (list_eq_dec N.eq_dec (l_units l) s) as [Es|]; [|reflexivity]. subst s. congruence. }
    assert (Hkls : forall s, kls t3 s = match l_class l with Some _ => if list_eq_dec N.eq_dec (l_units l) s then Some cls else kls t s | None => kls t s end).
    { intros s. rewrite <- (old_walk_none_k t t1 Hwf W1 P1 K1 s). unfold kls, t3. rewrite walk_retag.
      cbn [node_char_class]. unfold kc.
      destruct (l_class l) as [q|]; [|reflexivity].
      assert (L1' : (n < length (node_char_class t1))%nat) by (destruct W1 as (-> & _); exact L1).
      destruct (walk t1 0 s) as [m|] eqn:Em.
      - rewrite nth_set_nth by exact L1'. destruct (Nat.eqb_spec m n) as [->|Hne].
        + destruct (list_eq_dec N.eq_dec (l_units l) s) as [|Hns]; [reflexivity|].
          exfalso. apply Hns. exact (walk_inj t1 W1 _ _ _ C1 Em).
        + destruct (list_eq_dec N.eq_dec (l_units l) s) as [Es|]; [|reflexivity].
          subst s. congruence.
      - destruct (list_eq_dec N.eq_dec (l_units l) s) as [Es|]; [|reflexivity]. subst s. congruence. }
    destruct (IH t3 (match l_class l with Some _ => S cls | None => cls end) W3) as (W' & V' & K' & O' & A' & I').
    split; [exact W'|]. split; [|split; [|split; [|split]]].
    + intros s. rewrite V', Hval. reflexivity.
    + intros s. rewrite K', Hkls. cbn [last_kls]. destruct (l_class l); reflexivity.
    + intros s Hs. apply O'. unfold t3. rewrite walk_retag.
      destruct (walk t 0 s) as [m|] eqn:Em; [|congruence]. rewrite (walk_mono t t1 P1 _ _ _ Em). discriminate.
    + intros l' [->|Hl']; [|now apply A'].
      apply O'. unfold t3. rewrite walk_retag. rewrite C1. discriminate.
    + intros x f g Hx. destruct (I' _ _ _ Hx) as [Hx'|(l' & Hl' & Hx')].
      * unfold t3 in Hx'. cbn in Hx'. destruct (I1 _ _ _ Hx') as [|Hx2]; [now left|].
        right. exists l. split; [now left|exact Hx2].
      * right. exists l'. split; [now right|exact Hx'].
Qed.

Lemma last_val_some ls s : forall d v, last_val ls s d = Some v ->
  (exists l, In l ls /\ l_units l = s /\ l_value l = v) \/ (d = Some v /\ forall l, In l ls -> l_units l <> s).
Proof.
  unfold last_val. induction ls as [|l ls IH]; intros d v H; cbn in H.
  - right. split; [exact H|easy].
  - destruct (IH _ _ H) as [(l' & H1 & H2)|[H1 H2]].
    + left. exists l'. split; [now right|exact H2].
    + destruct (list_eq_dec N.eq_dec (l_units l) s) as [Es|Ens].
      * left. exists l. injection H1 as H1. split; [now left|split; auto].
      * right. split; [exact H1|]. intros l' [<-|Hl']; auto.
Qed.

Lemma last_val_none ls s : forall d, last_val ls s d = None -> forall l, In l ls -> l_units l <> s.
Proof.
  unfold last_val. assert (Hm : forall ls v, fold_left (fun acc l => if list_eq_dec N.eq_dec (l_units l) s then Some (l_value l) else acc) ls (Some v) <> None).
  { clear ls. induction ls as [|l ls IH]; intros v; cbn; [discriminate|]. destruct (list_eq_dec _ _ _); apply IH. }
  induction ls as [|l ls IH]; intros d H l' Hl'; [easy|]. cbn in H. destruct Hl' as [<-|Hl'].
  - destruct (list_eq_dec N.eq_dec (l_units l) s); [|assumption]. exfalso. eapply Hm; exact H.
  - eapply IH; eauto.
Qed.

(** The class stored for [s] is the class of some literal spelled [s]; and there is
    one if some literal spelled [s] has one. *)
Lemma last_kls_spec ls s : forall pre d,
  (match last_kls (length pre) ls s d with
   | Some k => (exists l q, In l ls /\ l_units l = s /\ l_class l = Some q /\
                            nth_error (pre ++ class_list ls) k = Some q) \/
               (d = Some k /\ forall l, In l ls -> l_units l = s -> l_class l = None)
   | None => d = None /\ forall l, In l ls -> l_units l = s -> l_class l = None
   end).
Proof.
  induction ls as [|l ls IH]; intros pre d; cbn [last_kls class_list].
  - destruct d; [right|]; split; auto; easy.
  - destruct (l_class l) as [q|] eqn:Eq.
    + specialize (IH (pre ++ [q]) (if list_eq_dec N.eq_dec (l_units l) s then Some (length pre) else d)).
      rewrite app_length in IH. cbn [length] in IH. replace (length pre + 1)%nat with (S (length pre)) in IH by lia.
      rewrite <- app_assoc in IH. cbn [app] in IH.
      destruct (last_kls (S (length pre)) ls s _) as [k|].
      * destruct IH as [(l' & q' & H1 & H2)|[H1 H2]].
        -- left. exists l', q'. split; [now right|exact H2].
        -- destruct (list_eq_dec N.eq_dec (l_units l) s) as [Es|Ens].
           ++ injection H1 as H1. subst k. left. exists l, q. split; [now left|]. split; [exact Es|]. split; [exact Eq|].
              rewrite nth_error_app2 by lia. rewrite Nat.sub_diag. reflexivity.
           ++ right. split; [exact H1|]. intros l' [<-|Hl'] Hs; [congruence|auto].
      * destruct (list_eq_dec N.eq_dec (l_units l) s) as [Es|Ens]; destruct IH as [H1 H2]; [discriminate|].
        split; [exact H1|]. intros l' [<-|Hl'] Hs; [congruence|auto].
    + specialize (IH pre d). destruct (last_kls (length pre) ls s d) as [k|].
      * destruct IH as [(l' & q' & H1 & H2)|[H1 H2]].
        -- left. exists l', q'. split; [now right|exact H2].
        -- right. split; [exact H1|]. intros l' [<-|Hl'] Hs; auto.
      * destruct IH as [H1 H2]. split; [exact H1|]. intros l' [<-|Hl'] Hs; auto.
Qed.

Lemma skipn_S (A : Type) (l : list A) p c r : skipn p l = c :: r -> skipn (S p) l = r.
Proof. intros H. replace (S p) with (p + 1)%nat by lia. rewrite <- (skipn_skipn l 1 p), H. reflexivity. Qed.

Lemma units_raw E inp : no_eof E inp -> forall k p, units k E (raw E inp) p = firstn k (skipn p inp).
Proof.
  intros Hinp. induction k as [|k IH]; intros p; cbn [units]; [reflexivity|].
  rewrite raw_peek. destruct (skipn p inp) as [|c r] eqn:Er.
  - rewrite N.eqb_refl. reflexivity.
  - destruct (N.eqb_spec c (leof E)) as [Ec|_].
    + exfalso. apply Hinp. rewrite <- (firstn_skipn p inp), Er, in_app_iff. right. left. exact Ec.
    + cbn [firstn]. f_equal. cbn [o_bump raw]. rewrite IH. f_equal. now apply skipn_S with c.
Qed.

(** ** The matcher *)
Section Matcher.
Variable (E : lenc) (t : trie) (classes : list (list N -> bool)) (inp : list N).
Hypothesis Hwf : wf t.
Hypothesis Hinp : no_eof E inp.
Hypothesis Htr : forall x f g, In (x, f, g) (transition t) -> x <> leof E.

Definition accept (n : nat) (rest : list N) : option N :=
  match nth n (node_value t) None with
  | None => None
  | Some v =>
    match nth n (node_char_class t) None with
    | None => Some v
    | Some k => match nth_error classes k with
                | None => Some v
                | Some q => if q (firstn 4 rest) then None else Some v
                end
    end
  end.

Lemma find_child n c :
  match find (fun '(ch, _, _) => c =? ch) (node_transitions t n) with
  | Some (_, _, to) => child t n c = Some to
  | None => child t n c = None
  end.
Proof.
  unfold node_transitions, child.
  induction (skipn n (transition t)) as [|[[ch fr] to] ts IH]; cbn [filter find find_transition]; [reflexivity|].
  destruct (Nat.eqb_spec fr n) as [->|]; cbn [andb find]; [|exact IH].
  rewrite (N.eqb_sym ch c). destruct (c =? ch); [reflexivity|exact IH].
Qed.

(** What a match from node [n] at position [pos] must be. *)
Definition good (n pos : nat) (v : option N) (e : nat) : Prop :=
  match v with
  | Some x =>
    exists s m, walk t n s = Some m /\ starts_with s (skipn pos inp) /\ e = (pos + length s)%nat /\
      accept m (skipn e inp) = Some x /\
      (forall s' m', walk t n s' = Some m' -> starts_with s' (skipn pos inp) ->
         accept m' (skipn (pos + length s') inp) <> None -> (length s' <= length s)%nat)
  | None =>
    e = pos /\
    (forall s' m', walk t n s' = Some m' -> starts_with s' (skipn pos inp) ->
       accept m' (skipn (pos + length s') inp) = None)
  end.

Lemma try_match_good fold : forall fuel n pos, (n < node_count t)%nat -> (node_count t - n <= fuel)%nat ->
  (pos <= length inp)%nat ->
  exists v e, try_match fold NoFold E t classes fuel (raw E inp) n pos = Match v e /\ good n pos v e.
Proof.
  induction fuel as [|fuel IH]; intros n pos Hn Hf Hp; [lia|].
  cbn [try_match]. unfold node_impl.
  set (own := fun s : nat => match nth n (node_value t) None with
                | Some v => match nth n (node_char_class t) None with
                            | Some k => match nth_error classes k with
                                        | Some q => if q (units 4 E (raw E inp) s) then Match None s else Match (Some v) s
                                        | None => Match (Some v) s
                                        end
                            | None => Match (Some v) s
                            end
                | None => Match None s
                end).
  assert (Hown : own pos = Match (accept n (skipn pos inp)) pos).
  { unfold own, accept. rewrite (units_raw E inp Hinp). destruct (nth n (node_value t) None); [|reflexivity].
    destruct (nth n (node_char_class t) None); [|reflexivity].
    destruct (nth_error classes n1); [|reflexivity]. destruct (b _); reflexivity. }
  assert (Hleaf : (forall s' m', walk t n s' = Some m' -> starts_with s' (skipn pos inp) -> s' <> [] ->
                    accept m' (skipn (pos + length s') inp) = None) ->
                  good n pos (accept n (skipn pos inp)) pos).
  { intros H. unfold good. destruct (accept n (skipn pos inp)) as [x|] eqn:Ea.
    - exists [], n. cbn [length walk]. rewrite Nat.add_0_r. repeat split; auto; [now exists (skipn pos inp)|].
      intros s' m' Hw Hs Hacc. destruct s' as [|c s']; [cbn; lia|]. exfalso. apply Hacc. eapply H; eauto; discriminate.
    - split; [reflexivity|]. intros s' m' Hw Hs. destruct s' as [|c s'].
      + cbn in Hw. injection Hw as <-. cbn [length]. rewrite Nat.add_0_r. exact Ea.
      + eapply H; eauto. discriminate. }
  assert (Hstep : forall c s' m', walk t n (c :: s') = Some m' -> starts_with (c :: s') (skipn pos inp) ->
            o_peek (raw E inp) pos = c /\ exists k, child t n c = Some k /\ walk t k s' = Some m' /\
            starts_with s' (skipn (S pos) inp) /\ (S pos <= length inp)%nat).
  { intros c s' m' Hw [r Hr]. rewrite raw_peek, Hr. cbn [app]. split; [reflexivity|].
    cbn [walk] in Hw. destruct (child t n c) as [k|]; [|discriminate]. exists k.
    split; [reflexivity|]. split; [exact Hw|]. split; [exists r; now apply skipn_S with c|].
    assert (length (skipn pos inp) = S (length (s' ++ r))) by now rewrite Hr.
    rewrite skipn_length in H. lia. }
  pose proof (find_child n (o_peek (raw E inp) pos)) as Hfc.
  destruct (node_transitions t n) as [|tr0 trs] eqn:Ets.
  - (* no transitions *)
    cbn [find] in Hfc. fold (own pos). rewrite Hown. do 2 eexists. split; [reflexivity|]. apply Hleaf.
    intros s' m' Hw Hs Hne. destruct s' as [|c s']; [congruence|].
    destruct (Hstep _ _ _ Hw Hs) as (Hpk & k & Hk & _). congruence.
  - rewrite <- Ets in *. clear Ets tr0 trs.
    destruct (find _ (node_transitions t n)) as [[[ch fr] to]|] eqn:Ef.
    + pose proof (child_bounds t _ _ _ Hwf Hfc) as Hto.
      assert (Hlt : (pos < length inp)%nat).
      { destruct (Nat.lt_ge_cases pos (length inp)) as [H|H]; [exact H|]. exfalso.
        apply (child_in t _ _ _ Hwf) in Hfc. apply Htr in Hfc. rewrite raw_peek, skipn_all2 in Hfc by lia. congruence. }
      destruct (IH to (S pos) ltac:(lia) ltac:(lia) ltac:(lia)) as (v & e & Ev & Hg).
      change (o_bump (raw E inp) pos) with (S pos). rewrite Ev.
      destruct v as [x|].
      * exists (Some x), e. split; [reflexivity|]. cbn [good] in *.
        destruct Hg as (s & m & Hw & [r Hr] & -> & Hacc & Hmax).
        exists (o_peek (raw E inp) pos :: s), m. cbn [walk length]. rewrite Hfc.
        split; [exact Hw|].
        assert (Hcons : skipn pos inp = o_peek (raw E inp) pos :: skipn (S pos) inp).
        { rewrite raw_peek. destruct (skipn pos inp) as [|c r'] eqn:Er.
          - assert (length (skipn pos inp) = 0)%nat by now rewrite Er. rewrite skipn_length in H. lia.
          - f_equal. symmetry. now apply skipn_S with c. }
        split; [exists r; rewrite Hcons, Hr; reflexivity|]. split; [lia|].
        split; [replace (pos + S (length s))%nat with (S pos + length s)%nat by lia; exact Hacc|].
        intros s' m' Hw' Hs' Hacc'. destruct s' as [|c s']; [cbn; lia|].
        destruct (Hstep _ _ _ Hw' Hs') as (Hpk & k & Hk & Hwk & Hsk & _).
        rewrite Hpk in Hfc. rewrite Hk in Hfc. injection Hfc as ->.
        cbn [length] in *. apply le_n_S. eapply Hmax; eauto.
        replace (S pos + length s')%nat with (pos + S (length s'))%nat by lia. exact Hacc'.
      * cbn [good] in Hg. destruct Hg as [-> Hnone].
        change (o_reset (raw E inp) (o_current (raw E inp) pos) (S pos)) with pos. fold (own pos). rewrite Hown.
        do 2 eexists. split; [reflexivity|]. apply Hleaf.
        intros s' m' Hw Hs Hne. destruct s' as [|c s']; [congruence|].
        destruct (Hstep _ _ _ Hw Hs) as (Hpk & k & Hk & Hwk & Hsk & _).
        rewrite Hpk in Hfc. rewrite Hk in Hfc. injection Hfc as ->. cbn [length].
        replace (pos + S (length s'))%nat with (S pos + length s')%nat by lia. eapply Hnone; eauto.
    + assert (Hres : match node_transitions t n with
              | [] => own pos
              | _ :: _ => own (o_reset (raw E inp) (o_current (raw E inp) pos) pos)
              end = Match (accept n (skipn pos inp)) pos).
      { change (o_reset (raw E inp) (o_current (raw E inp) pos) pos) with pos. destruct (node_transitions t n); exact Hown. }
      exists (accept n (skipn pos inp)), pos. split.
      * destruct (node_transitions t n); exact Hown.
      * apply Hleaf. intros s' m' Hw Hs Hne. destruct s' as [|c s']; [congruence|].
        destruct (Hstep _ _ _ Hw Hs) as (Hpk & k & Hk & _). congruence.
Qed.
End Matcher.

(** ** Literal sets take the longest match *)
Lemma applies_accept ls inp pos l n :
  consistent ls -> In l ls ->
  walk (build_trie ls) 0 (l_units l) = Some n ->
  starts_with (l_units l) (skipn pos inp) ->
  accept (build_trie ls) (class_list ls) n (skipn (pos + length (l_units l)) inp)
  = (if match l_class l with Some q => q (firstn 4 (skipn (length (l_units l)) (skipn pos inp))) | None => false end
     then None else Some (l_value l)).
Proof.
  intros Hc Hl Hw Hs. destruct (build_spec ls empty_trie 0 empty_wf) as (_ & V & K & _).
  fold (build_trie ls) in V, K.
  specialize (V (l_units l)). specialize (K (l_units l)). unfold val, kls in V, K. rewrite Hw in V, K.
  assert (E0 : forall s, val empty_trie s = None /\ kls empty_trie s = None).
  { intros [|c [|]]; cbn; auto; unfold child; cbn; auto. }
  assert (EV : nth n (node_value (build_trie ls)) None = Some (l_value l)).
  { rewrite V. match goal with |- last_val _ _ ?d = _ => destruct (last_val ls (l_units l) d) as [v|] eqn:El end.
    - apply last_val_some in El. destruct El as [(l' & H1 & H2 & H3)|[_ H2]].
      + destruct (Hc l l' Hl H1 (eq_sym H2)) as [Hv _]. congruence.
      + exfalso. now apply (H2 l Hl).
    - exfalso. now apply (last_val_none _ _ _ El l Hl). }
  unfold accept. rewrite EV. rewrite K.
  pose proof (last_kls_spec ls (l_units l) [] (match walk empty_trie 0 (l_units l) with Some n0 => nth n0 (node_char_class empty_trie) None | None => None end)) as HK.
  cbn [length app] in HK.
  assert (Ed : match walk empty_trie 0 (l_units l) with Some n0 => nth n0 (node_char_class empty_trie) None | None => None end = None)
    by apply (E0 (l_units l)).
  rewrite Ed in *.
  rewrite skipn_skipn.
  destruct (last_kls 0 ls (l_units l) None) as [k|].
  - destruct HK as [(l' & q & H1 & H2 & H3 & H4)|[H1 _]]; [|discriminate].
    destruct (Hc l l' Hl H1 (eq_sym H2)) as [_ Hq]. rewrite Hq, H3, H4. reflexivity.
  - destruct HK as [_ HK]. rewrite (HK l Hl eq_refl). reflexivity.
Qed.

Lemma set_try_spec fold E ls inp pos :
  consistent ls -> no_eof E inp -> (forall l, In l ls -> no_eof E (l_units l)) -> (pos <= length inp)%nat ->
  (exists l, longest ls (skipn pos inp) l /\
     set_try fold NoFold E ls inp pos = Match (Some (l_value l)) (pos + length (l_units l))%nat) \/
  (none_applies ls (skipn pos inp) /\ set_try fold NoFold E ls inp pos = Match None pos).
Proof.
  intros Hc Hin Hls Hp. unfold set_try. cbn zeta.
  destruct (build_spec ls empty_trie 0 empty_wf) as (W & V & K & _ & A & I). fold (build_trie ls) in *.
  assert (Htr : forall x f g, In (x, f, g) (transition (build_trie ls)) -> x <> leof E).
  { intros x f g H. destruct (I _ _ _ H) as [[]|(l & Hl & Hx)]. intros ->. now apply (Hls l Hl). }
  assert (H0 : (0 < node_count (build_trie ls))%nat) by (destruct W as (_ & -> & _); lia).
  destruct (try_match_good E (build_trie ls) (class_list ls) inp W Hin Htr fold (node_count (build_trie ls)) 0 pos H0 ltac:(lia) Hp)
    as (v & e & Ev & Hg).
  rewrite Ev.
  (* strings in the trie that can be accepted are the literals *)
  assert (Hacc : forall s m rest, walk (build_trie ls) 0 s = Some m -> accept (build_trie ls) (class_list ls) m rest <> None ->
            exists l, In l ls /\ l_units l = s).
  { intros s m rest Hw Ha. assert (Hv : val (build_trie ls) s <> None).
    { unfold val. rewrite Hw. unfold accept in Ha. destruct (nth m _ None); [discriminate|congruence]. }
    rewrite V in Hv. destruct (last_val ls s (val empty_trie s)) as [x|] eqn:El; [|congruence].
    destruct (last_val_some _ _ _ _ El) as [(l & H1 & H2 & _)|[H1 _]]; [eauto|].
    exfalso. destruct s as [|c [|]]; cbn in H1; discriminate. }
  assert (Happ : forall l, In l ls -> exists m, walk (build_trie ls) 0 (l_units l) = Some m /\
            (applies l (skipn pos inp) <-> starts_with (l_units l) (skipn pos inp) /\
               accept (build_trie ls) (class_list ls) m (skipn (pos + length (l_units l)) inp) = Some (l_value l)) /\
            (starts_with (l_units l) (skipn pos inp) -> ~ applies l (skipn pos inp) ->
               accept (build_trie ls) (class_list ls) m (skipn (pos + length (l_units l)) inp) = None)).
  { intros l Hl. destruct (walk (build_trie ls) 0 (l_units l)) as [m|] eqn:Em; [|exfalso; now apply (A l Hl)].
    exists m. split; [reflexivity|]. split.
    - split.
      + intros [Hs Hq]. split; [exact Hs|]. rewrite (applies_accept ls inp pos l m Hc Hl Em Hs).
        destruct (l_class l) as [q|]; [|reflexivity]. rewrite (Hq q eq_refl). reflexivity.
      + intros [Hs Ha]. rewrite (applies_accept ls inp pos l m Hc Hl Em Hs) in Ha. split; [exact Hs|].
        intros q Hq. rewrite Hq in Ha. destruct (q _); [discriminate|reflexivity].
    - intros Hs Hn. rewrite (applies_accept ls inp pos l m Hc Hl Em Hs).
      destruct (l_class l) as [q|] eqn:Eq.
      + destruct (q _) eqn:Eb; [reflexivity|]. exfalso. apply Hn. split; [exact Hs|]. intros q' Hq'. congruence.
      + exfalso. apply Hn. split; [exact Hs|]. intros q' Hq'. congruence. }
  destruct v as [x|]; cbn [good] in Hg.
  - destruct Hg as (s & m & Hw & Hs & -> & Ha & Hmax). left.
    destruct (Hacc s m _ Hw ltac:(rewrite Ha; discriminate)) as (l & Hl & <-).
    destruct (Happ l Hl) as (m' & Hm' & Hiff & Hneg). rewrite Hw in Hm'. injection Hm' as <-.
    assert (Hap : applies l (skipn pos inp)).
    { rewrite (applies_accept ls inp pos l m Hc Hl Hw Hs) in Ha. split; [exact Hs|].
      intros q Hq. rewrite Hq in Ha. destruct (q _); [discriminate|reflexivity]. }
    pose proof (proj1 Hiff Hap) as [_ Ha'].
    exists l. split; [|rewrite Ha in Ha'; injection Ha' as ->; reflexivity].
    split; [exact Hl|]. split; [exact Hap|].
    intros l' Hl' Hap'. destruct (Happ l' Hl') as (m2 & Hm2 & Hiff2 & _).
    apply Hiff2 in Hap'. destruct Hap' as [Hs2 Ha2]. eapply Hmax; eauto. rewrite Ha2. discriminate.
  - destruct Hg as [-> Hnone]. right. split; [|reflexivity].
    intros l Hl Hap. destruct (Happ l Hl) as (m & Hm & Hiff & _). apply Hiff in Hap. destruct Hap as [Hs Ha].
    rewrite (Hnone _ _ Hm Hs) in Ha. discriminate.
Qed.

Lemma longest_value ls rest l l' : consistent ls -> longest ls rest l -> longest ls rest l' ->
  l_value l = l_value l' /\ length (l_units l) = length (l_units l').
Proof.
  intros Hc (Hl & Ha & Hm) (Hl' & Ha' & Hm').
  pose proof (Hm _ Hl' Ha') as H1. pose proof (Hm' _ Hl Ha) as H2.
  assert (Elen : length (l_units l) = length (l_units l')) by lia.
  destruct Ha as [[r Hr] _], Ha' as [[r' Hr'] _]. rewrite Hr in Hr'.
  assert (Eu : l_units l = l_units l').
  { apply (f_equal (firstn (length (l_units l)))) in Hr'. rewrite firstn_app_exact in Hr'.
    rewrite Elen in Hr' at 1. rewrite firstn_app_exact in Hr'. exact Hr'. }
  split; [apply (Hc l l' Hl Hl' Eu)|exact Elen].
Qed.

Lemma set_try_same_members fold E ls ls' inp pos :
  (forall l, In l ls <-> In l ls') ->
  consistent ls -> no_eof E inp -> (forall l, In l ls -> no_eof E (l_units l)) -> (pos <= length inp)%nat ->
  set_try fold NoFold E ls inp pos = set_try fold NoFold E ls' inp pos.
Proof.
  intros Hm Hc Hin Hls Hp.
  assert (Hc' : consistent ls') by (intros l l' H H'; apply Hc; now apply Hm).
  assert (Hlg : forall rest l, longest ls' rest l <-> longest ls rest l).
  { intros rest l. unfold longest. rewrite Hm. split; intros (H1 & H2 & H3); repeat split; try assumption;
      try apply H2; intros l' Hl'; apply H3; now apply Hm. }
  destruct (set_try_spec fold E ls inp pos Hc Hin Hls Hp) as [(l & H1 & ->)|[H1 ->]];
  destruct (set_try_spec fold E ls' inp pos Hc' Hin ltac:(intros l' Hl'; apply Hls; now apply Hm) Hp) as [(l2 & H2 & ->)|[H2 ->]].
  - apply Hlg in H2. destruct (longest_value ls _ _ _ Hc H1 H2) as [-> ->]. reflexivity.
  - exfalso. destruct H1 as (Hl & Ha & _). apply (H2 l); [now apply Hm|exact Ha].
  - exfalso. apply Hlg in H2. destruct H2 as (Hl & Ha & _). apply (H1 l2); assumption.
  - reflexivity.
Qed.

(** ** Case folding by a unit-wise map (ASCII, and UTF-32 Unicode) *)
Section UnitFold.
Variable (E : lenc) (g : N -> N) (inp : list N).
Hypothesis g_idem : forall c, g (g c) = g c.
Hypothesis g_eof : g (leof E) = leof E.

Lemma raw_map_peek p : o_peek (raw E (map g inp)) p = g (o_peek (raw E inp) p).
Proof. cbn. rewrite nth_error_map. destruct (nth_error inp p); cbn; congruence. Qed.

Definition like (o : ops nat) : Prop :=
  (forall p, g (o_peek o p) = o_peek (raw E (map g inp)) p) /\
  (forall p, o_bump o p = S p) /\ (forall p, o_current o p = p) /\ (forall m p, o_reset o m p = m).
Definition exact (o : ops nat) : Prop :=
  (forall p, o_peek o p = o_peek (raw E (map g inp)) p) /\
  (forall p, o_bump o p = S p) /\ (forall p, o_current o p = p) /\ (forall m p, o_reset o m p = m).

Lemma like_raw : like (raw E inp).
Proof. repeat split. intros p. now rewrite raw_map_peek. Qed.
Lemma exact_like o : exact o -> like o.
Proof. intros (H1 & H2). split; [|exact H2]. intros p. rewrite H1, raw_map_peek, g_idem. reflexivity. Qed.

Lemma exact_units o : exact o -> forall k p, units k E o p = units k E (raw E (map g inp)) p.
Proof.
  intros (Hp & Hb & _). induction k as [|k IH]; intros p; cbn [units]; [reflexivity|].
  rewrite Hp, Hb. cbn [o_bump raw]. rewrite IH. reflexivity.
Qed.

Lemma exact_match_units o : exact o -> forall cs p, match_units o cs p = match_units (raw E (map g inp)) cs p.
Proof.
  intros (Hp & Hb & _). induction cs as [|c cs IH]; intros p; cbn [match_units]; [reflexivity|].
  rewrite Hp, Hb. cbn [o_bump raw]. rewrite IH. reflexivity.
Qed.

Lemma exact_impl t classes o rec rec' : exact o ->
  (forall n p, rec n p = rec' n p) ->
  forall node p, node_impl E t classes o rec node p = node_impl E t classes (raw E (map g inp)) rec' node p.
Proof.
  intros Ho Hrec node p. pose proof Ho as (Hp & Hb & Hcur & Hres). unfold node_impl.
  rewrite Hp, Hb, Hcur. cbn [o_bump o_current o_reset raw].
  assert (Hown : forall s, match nth node (node_value t) None with
     | Some v => match nth node (node_char_class t) None with
                 | Some k => match nth_error classes k with
                             | Some q => if q (units 4 E o s) then Match None s else Match (Some v) s
                             | None => Match (Some v) s end
                 | None => Match (Some v) s end
     | None => Match None s end =
     match nth node (node_value t) None with
     | Some v => match nth node (node_char_class t) None with
                 | Some k => match nth_error classes k with
                             | Some q => if q (units 4 E (raw E (map g inp)) s) then Match None s else Match (Some v) s
                             | None => Match (Some v) s end
                 | None => Match (Some v) s end
     | None => Match None s end) by (intros s; rewrite (exact_units o Ho); reflexivity).
  destruct (node_transitions t node) as [|tr0 trs]; [apply Hown|].
  destruct (find _ (tr0 :: trs)) as [[[ch fr] to]|].
  - rewrite Hrec. destruct (rec' to (S p)) as [|[v|] s']; auto. rewrite Hres. apply Hown.
  - rewrite Hres. apply Hown.
Qed.
End UnitFold.

Lemma lower_idem c : lower (lower c) = lower c.
Proof.
  unfold lower. destruct (N.leb_spec 65 c), (N.leb_spec c 90); cbn [andb];
    repeat match goal with |- context [N.leb ?a ?b] => destruct (N.leb_spec a b) end; cbn [andb]; lia.
Qed.
Lemma lower_eof E : lower (leof E) = leof E.
Proof. destruct E as [|[]]; reflexivity. Qed.

Lemma ascii_try_match fold E inp t classes : forall fuel o n p, like E lower inp o ->
  try_match fold AsciiFold E t classes fuel o n p
  = try_match fold NoFold E t classes fuel (raw E (map lower inp)) n p.
Proof.
  induction fuel as [|fuel IH]; intros o n p Ho; cbn [try_match]; [reflexivity|].
  assert (He : exact E lower inp (acf o)).
  { destruct Ho as (Hp & Hb & Hc & Hr). repeat split; auto. }
  rewrite (exact_impl E lower inp t classes (acf o) _
             (fun n0 s => try_match fold NoFold E t classes fuel (raw E (map lower inp)) n0 s) He).
  2:{ intros n0 q. apply IH. apply exact_like; auto using lower_idem, lower_eof. }
  destruct (node_impl E t classes (raw E (map lower inp)) _ n p) as [|v s']; [reflexivity|].
  destruct He as (_ & _ & Hc & _). destruct Ho as (_ & _ & _ & Hr). rewrite Hc, Hr. reflexivity.
Qed.

Lemma ascii_set fold E ls inp pos :
  set_try fold AsciiFold E ls inp pos = set_try fold NoFold E ls (map lower inp) pos.
Proof. unfold set_try. cbn zeta. apply ascii_try_match. apply like_raw, lower_eof. Qed.

Lemma utf32_try_match fold inp t classes :
  (forall c, simple_case_fold fold (simple_case_fold fold c) = simple_case_fold fold c) ->
  forall fuel o n p, like (Enc Utf32) (simple_case_fold fold) inp o ->
  try_match fold UnicodeFold (Enc Utf32) t classes fuel o n p
  = try_match fold NoFold (Enc Utf32) t classes fuel (raw (Enc Utf32) (map (simple_case_fold fold) inp)) n p.
Proof.
  intros Hid. induction fuel as [|fuel IH]; intros o n p Ho; cbn [try_match]; [reflexivity|].
  assert (He : exact (Enc Utf32) (simple_case_fold fold) inp (suc32 fold o)).
  { destruct Ho as (Hp & Hb & Hc & Hr). repeat split; auto. }
  rewrite (exact_impl (Enc Utf32) (simple_case_fold fold) inp t classes (suc32 fold o) _
             (fun n0 s => try_match fold NoFold (Enc Utf32) t classes fuel (raw (Enc Utf32) (map (simple_case_fold fold) inp)) n0 s) He).
  2:{ intros n0 q. apply IH. apply exact_like; auto. }
  destruct (node_impl (Enc Utf32) t classes (raw (Enc Utf32) _) _ n p) as [|v s']; [reflexivity|].
  destruct He as (_ & _ & Hc & _). destruct Ho as (_ & _ & _ & Hr). rewrite Hc, Hr. reflexivity.
Qed.

Lemma utf32_set fold ls inp pos :
  (forall c, simple_case_fold fold (simple_case_fold fold c) = simple_case_fold fold c) ->
  set_try fold UnicodeFold (Enc Utf32) ls inp pos
  = set_try fold NoFold (Enc Utf32) ls (map (simple_case_fold fold) inp) pos.
Proof. intros Hid. unfold set_try. cbn zeta. apply utf32_try_match; [exact Hid|]. apply like_raw. reflexivity. Qed.

(** ** Unicode case folding of a single literal on UTF-8 and UTF-16 *)
Definition decodable (e : encoding) (cp : N) : Prop :=
  cp_is_valid cp = true /\
  (0 < length (encode_code_point e cp) <= 4)%nat /\
  forall rest, parse_code_point e (encode_code_point e cp ++ rest)
             = CpResult cp success (length (encode_code_point e cp)).

Lemma parse_eof e : cr_error (parse_code_point e []) <> success.
Proof. destruct e; cbn; discriminate. Qed.
Lemma parse_eof_end e : cr_end (parse_code_point e []) = 0%nat.
Proof. destruct e; reflexivity. Qed.

(** parse_code_point looks at no more than four units. *)
Lemma peek_firstn e k l : peek e (firstn (S k) l) = peek e l.
Proof. destruct l; reflexivity. Qed.
Lemma tl_firstn (A : Type) k (l : list A) : tl (firstn (S k) l) = firstn k (tl l).
Proof. destruct l; [now rewrite !firstn_nil|reflexivity]. Qed.
Lemma parse_firstn e l : parse_code_point e (firstn 4 l) = parse_code_point e l.
Proof.
  destruct l as [|a l]; [reflexivity|]. destruct l as [|b l]; [reflexivity|].
  destruct l as [|c l]; [reflexivity|]. destruct l as [|d l]; [reflexivity|].
  destruct e; cbn [firstn parse_code_point peek tl]; reflexivity.
Qed.

Section UniLit.
Variable (fold : N -> N) (e : encoding) (inp : list N).
Hypothesis Hinp : no_eof (Enc e) inp.
Let o := raw (Enc e) inp.
Notation enc := (encode_code_point e).
Notation scf := (simple_case_fold fold).

Lemma bumps_raw : forall k p, bumps k o p = (p + k)%nat.
Proof. induction k as [|k IH]; intros p; cbn [bumps]; [lia|]. rewrite IH. cbn. lia. Qed.

Lemma fill_nil p : skipn p inp = [] -> sucm_fill fold e o p = (p, p, []).
Proof.
  intros H. unfold sucm_fill. unfold o. rewrite units_raw by exact Hinp. rewrite H. cbn [firstn].
  rewrite parse_eof_end. pose proof (parse_eof e).
  destruct (cr_error (parse_code_point e [])); try congruence; reflexivity.
Qed.

Lemma fill_cons p cp r : decodable e cp -> skipn p inp = enc cp ++ r ->
  sucm_fill fold e o p = ((p + length (enc cp))%nat, p, enc (scf cp)).
Proof.
  intros (Hv & Hlen & Hd) H. unfold sucm_fill.
  change o with (raw (Enc e) inp) at 2. rewrite (units_raw (Enc e) inp Hinp).
  rewrite parse_firstn, H, Hd. cbn [cr_error cr_cp cr_end]. rewrite bumps_raw. reflexivity.
Qed.

Lemma enc_prefix_free x y r : decodable e x -> decodable e y -> enc x = enc y ++ r -> x = y.
Proof.
  intros (_ & _ & Hx) (_ & _ & Hy) H. specialize (Hx []). specialize (Hy r).
  rewrite app_nil_r, H, Hy in Hx. injection Hx. congruence.
Qed.

(** Comparing one encoded code point [a] with the buffer [b]. *)
Lemma match_buffer : forall a b cs p' p, a <> [] -> b <> [] ->
  (a = b -> match_units (sucm fold e o) (a ++ cs) (p', p, b) = match_units (sucm fold e o) cs (sucm_fill fold e o p')) /\
  (a <> b -> (forall r, a <> b ++ r) -> (forall r, b <> a ++ r) ->
     exists b', match_units (sucm fold e o) (a ++ cs) (p', p, b) = (false, (p', p, b'))).
Proof.
  induction a as [|x a IH]; intros b cs p' p Ha Hb; [congruence|]. destruct b as [|y b]; [congruence|].
  cbn [app match_units]. cbn [sucm o_peek snd o_bump tl]. split.
  - intros H. injection H as <- <-. rewrite N.eqb_refl. destruct a as [|x' a].
    + reflexivity.
    + apply IH; congruence.
  - intros Hne Hp1 Hp2. destruct (N.eqb_spec y x) as [->|Hxy].
    + destruct b as [|y' b]; [exfalso; apply (Hp1 a); reflexivity|].
      destruct a as [|x' a]; [exfalso; apply (Hp2 (y' :: b)); reflexivity|].
      destruct (IH (y' :: b) cs p' p) as [_ H2]; [discriminate|discriminate|]. apply H2.
      * intros H. apply Hne. now f_equal.
      * intros r H. apply (Hp1 r). cbn. f_equal. exact H.
      * intros r H. apply (Hp2 r). cbn. f_equal. exact H.
    + exists (y :: b). reflexivity.
Qed.

Lemma unicode_lit : forall lcps cps p,
  Forall (decodable e) lcps -> Forall (decodable e) cps -> Forall (fun c => decodable e (fold c)) cps ->
  skipn p inp = lcp_string e cps ->
  let k := common lcps (map fold cps) in
  exists s, match_units (sucm fold e o) (lcp_string e lcps) (sucm_fill fold e o p)
            = ((k =? length lcps)%nat, s) /\
            o_current (sucm fold e o) s = (p + length (lcp_string e (firstn k cps)))%nat.
Proof.
  induction lcps as [|l lcps IH]; intros cps p Hl Hc Hf Hs.
  - cbn [common lcp_string map concat match_units length]. eexists. split; [reflexivity|].
    cbn [firstn lcp_string map concat length]. cbn [sucm o_current].
    unfold sucm_fill. destruct (cr_error _); cbn [fst snd]; cbn; lia.
  - destruct cps as [|c cps].
    + cbn [map common firstn lcp_string concat length]. cbn in Hs. rewrite (fill_nil p Hs).
      inversion Hl as [|? ? Hl1 Hl2]; subst.
      change (lcp_string e (l :: lcps)) with (enc l ++ lcp_string e lcps).
      destruct (enc l) as [|u us] eqn:Eu.
      { exfalso. destruct Hl1 as (_ & Hlen & _). rewrite Eu in Hlen. cbn in Hlen. lia. }
      cbn [app match_units]. cbn [sucm o_peek snd].
      destruct (N.eqb_spec (eof e) u) as [Eq|_].
      * exfalso. destruct Hl1 as (_ & _ & Hd). specialize (Hd []). rewrite Eu in Hd. subst u.
        destruct e; cbn in Hd; try discriminate; vm_compute in Hd; discriminate.
      * cbn [Nat.eqb]. eexists. split; [reflexivity|]. cbn. lia.
    + inversion Hl as [|? ? Hl1 Hl2]; inversion Hc as [|? ? Hc1 Hc2]; inversion Hf as [|? ? Hf1 Hf2]; subst.
      change (lcp_string e (c :: cps)) with (enc c ++ lcp_string e cps) in Hs.
      rewrite (fill_cons p c _ Hc1 Hs).
      change (lcp_string e (l :: lcps)) with (enc l ++ lcp_string e lcps).
      assert (Escf : scf c = fold c) by (unfold simple_case_fold; destruct Hc1 as (-> & _); reflexivity).
      rewrite Escf. cbn [map common].
      assert (Hnl : enc l <> []) by (destruct Hl1 as (_ & Hlen & _); intros H; rewrite H in Hlen; cbn in Hlen; lia).
      assert (Hnf : enc (fold c) <> []) by (destruct Hf1 as (_ & Hlen & _); intros H; rewrite H in Hlen; cbn in Hlen; lia).
      destruct (match_buffer (enc l) (enc (fold c)) (lcp_string e lcps) (p + length (enc c)) p Hnl Hnf) as [M1 M2].
      destruct (N.eqb_spec l (fold c)) as [El|Hne].
      * rewrite M1 by now rewrite El.
        destruct (IH cps (p + length (enc c))%nat Hl2 Hc2 Hf2) as (s & Es & Ecur).
        { rewrite <- skipn_skipn, Hs, skipn_app_exact. reflexivity. }
        exists s. split; [exact Es|]. rewrite Ecur. cbn [firstn].
        change (lcp_string e (c :: ?x)) with (enc c ++ lcp_string e x). unfold lcp_string. cbn [map concat].
        rewrite app_length. lia.
      * destruct M2 as [b' Eb].
        -- intros H. apply Hne. apply (enc_prefix_free l (fold c) []); auto. now rewrite app_nil_r.
        -- intros r H. apply Hne. now apply (enc_prefix_free l (fold c) r).
        -- intros r H. apply Hne. symmetry. now apply (enc_prefix_free (fold c) l r).
        -- rewrite Eb. eexists. split; [reflexivity|]. cbn. lia.
Qed.
End UniLit.

(** ** Assembly *)
From Verif Require Import CodecSpec CodecProofs CodecProps SwarModel SwarLanes SwarProofs SwarScan SwarScan2 BufferModel BufferReads.

Lemma common_leading cs l : leading cs l (common cs l).
Proof.
  split; [exact (proj1 (common_bounds cs l))|]. split; [exact (proj2 (common_bounds cs l))|].
  revert l; induction cs as [|c cs IH]; intros [|x l]; cbn [common firstn length nth_error]; auto.
  - split; [reflexivity|]. right. discriminate.
  - destruct (N.eqb_spec c x) as [->|Hne].
    + destruct (IH l) as [E1 E2]. cbn [firstn nth_error]. split; [congruence|]. destruct E2; [left; congruence|now right].
    + cbn. split; [reflexivity|]. right. congruence.
Qed.

Lemma leading_unique cs l k k' : leading cs l k -> leading cs l k' -> k = k'.
Proof.
  assert (H : forall k k', leading cs l k -> leading cs l k' -> ~ (k < k')%nat).
  { clear. intros k k' (H1 & H2 & H3 & H4) (H1' & H2' & H3' & H4') Hlt.
    destruct H4 as [->|H4]; [lia|]. apply H4.
    assert (E : forall A (l : list A), (k < k')%nat -> nth_error l k = nth_error (firstn k' l) k).
    { clear. intros A. revert k'. induction k as [|k IH]; intros [|k'] [|x l] H; cbn; auto; try lia. apply IH. lia. }
    rewrite (E _ cs Hlt), (E _ l Hlt), H3'. reflexivity. }
  intros H1 H2. pose proof (H _ _ H1 H2). pose proof (H _ _ H2 H1). lia.
Qed.

Lemma starts_with_leading cs l : starts_with cs l <-> leading cs l (length cs).
Proof.
  rewrite <- common_full. pose proof (common_leading cs l) as Hc. split.
  - intros E. now rewrite E in Hc.
  - intros H. now apply (leading_unique cs l).
Qed.

Lemma literal_range E inp cs pos : no_eof E cs -> (pos <= length inp)%nat ->
  exists ok k, lit_try (raw E inp) cs pos = (ok, (pos + k)%nat) /\
    leading cs (skipn pos inp) k /\ (ok = true <-> starts_with cs (skipn pos inp)) /\
    (ok = true -> k = length cs) /\ (pos + k <= length inp)%nat /\
    lit_error pos cs (pos + k)%nat = (pos, k, length cs).
Proof.
  intros Hn Hp. rewrite lit_try_raw by exact Hn.
  exists (common cs (skipn pos inp) =? length cs)%nat, (common cs (skipn pos inp)).
  split; [reflexivity|]. split; [apply common_leading|].
  split; [rewrite Nat.eqb_eq; apply common_full|].
  split; [now intros ->%Nat.eqb_eq|].
  pose proof (common_bounds cs (skipn pos inp)) as [_ Hl]. rewrite skipn_length in Hl. split; [lia|].
  unfold lit_error. f_equal; f_equal; lia.
Qed.

Lemma literal_wl w wl cs mem : forall fuel cur pos,
  match match_literal_swar fuel w wl cs cur mem pos, match_literal_swar fuel w w cs cur mem pos with
  | Fin a p, Fin b q => a = b /\ (a = true -> p = q)
  | Oob2, Oob2 | NoFuel2, NoFuel2 => True
  | _, _ => False
  end.
Proof.
  induction fuel as [|fuel IH]; intros cur pos; cbn [match_literal_swar]; [exact I|].
  destruct (length cs <=? cur)%nat; [auto|]. destruct (peek_swar w mem pos); [|exact I].
  destruct (N.land _ _ =? _); [apply IH|]. split; [reflexivity|discriminate].
Qed.

Lemma literal_buffer w wl contents cs pos :
  width_ok w -> Forall (fun x => x < 2 ^ w) contents -> ~ In (2 ^ w - 1) contents ->
  Forall (fun x => x < 2 ^ w) cs -> ~ In (2 ^ w - 1) cs -> (pos <= length contents)%nat ->
  exists ok k, match_literal w wl cs (buffer_mem (2 ^ w - 1) contents) pos = Fin ok (pos + k)%nat /\
    (ok = true <-> starts_with cs (skipn pos contents)) /\ (ok = true -> k = length cs) /\
    (wl = w \/ (length cs < swar_length w)%nat ->
       leading cs (skipn pos contents) k /\ (pos + k <= length contents)%nat /\
       lit_error pos cs (pos + k)%nat = (pos, k, length cs)).
Proof.
  intros Hw Hl Hn Hcs Hcn Hp.
  pose proof (buffer_mem_ok w contents Hw Hl Hn) as Hok.
  pose proof (literal_spec w _ _ _ Hok cs pos Hcs Hcn Hp) as Hsp. unfold lit_result in Hsp.
  change (mem_of (2 ^ w - 1) (alloc_size true (length contents) - length contents) contents)
    with (buffer_mem (2 ^ w - 1) contents) in Hsp.
  set (k := common cs (skipn pos contents)) in *.
  pose proof (common_bounds cs (skipn pos contents)) as [_ Hk]. fold k in Hk. rewrite skipn_length in Hk.
  assert (Hgood : leading cs (skipn pos contents) k /\ (pos + k <= length contents)%nat /\
                  lit_error pos cs (pos + k)%nat = (pos, k, length cs)).
  { split; [apply common_leading|]. split; [lia|]. unfold lit_error. f_equal; f_equal; lia. }
  assert (Hb : ((k =? length cs)%nat = true <-> starts_with cs (skipn pos contents)))
    by (rewrite Nat.eqb_eq; apply common_full).
  assert (Hsame : (wl = w \/ (length cs < swar_length w)%nat) ->
     match_literal w wl cs (buffer_mem (2 ^ w - 1) contents) pos = Fin (k =? length cs)%nat (pos + k)).
  { intros [->|Hs]; [exact Hsp|]. rewrite <- Hsp. unfold match_literal.
    destruct (Nat.leb_spec (swar_length w) (length cs)); [lia|]. reflexivity. }
  destruct (N.eq_dec wl w) as [Ew|Hne].
  { exists (k =? length cs)%nat, k. split; [apply Hsame; now left|]. split; [exact Hb|].
    split; [now intros ->%Nat.eqb_eq|]. auto. }
  destruct (Nat.lt_ge_cases (length cs) (swar_length w)) as [Hlt|Hge].
  { exists (k =? length cs)%nat, k. split; [apply Hsame; now right|]. split; [exact Hb|].
    split; [now intros ->%Nat.eqb_eq|]. auto. }
  unfold match_literal in *. destruct (_ && _)%bool eqn:Eb.
  - pose proof (literal_wl w wl cs (buffer_mem (2 ^ w - 1) contents) (S (length cs)) 0 pos) as Hwl.
    rewrite Hsp in Hwl. destruct (match_literal_swar (S (length cs)) w wl cs 0 _ pos) as [a p| |] eqn:Em; try contradiction.
    destruct Hwl as [-> Hp2].
    assert (Hge2 : (pos <= p)%nat).
    { clearbody k. clear -Em. revert Em. generalize (S (length cs)). generalize (buffer_mem (2 ^ w - 1) contents). intros mem n.
      generalize (k =? length cs)%nat. intros b. revert pos p. generalize 0%nat.
      induction n as [|n IH]; intros cur pos p Em; cbn [match_literal_swar] in Em; [discriminate|].
      destruct (length cs <=? cur)%nat; [injection Em; lia|]. destruct (peek_swar w mem pos); [|discriminate].
      destruct (N.land _ _ =? _); [apply IH in Em; lia|injection Em; lia]. }
    exists (k =? length cs)%nat, (p - pos)%nat. split; [f_equal; lia|]. split; [exact Hb|].
    split.
    + intros H. specialize (Hp2 H). apply Nat.eqb_eq in H. lia.
    + intros [|]; [congruence|lia].
  - rewrite Hsp. exists (k =? length cs)%nat, k. split; [reflexivity|]. split; [exact Hb|].
    split; [now intros ->%Nat.eqb_eq|]. auto.
Qed.

Lemma readable_decodable e cp : readable e cp -> decodable e cp.
Proof.
  intros (Hv & Hs & He). unfold decodable.
  assert (Hscal : scalar cp) by (unfold scalar; lia).
  split; [unfold cp_is_valid; lia|]. destruct e; try contradiction.
  - split; [|intros rest; now apply C01_utf8_roundtrip].
    unfold encode_code_point. repeat match goal with |- context [if ?b then _ else _] => destruct b end; cbn; lia.
  - split; [unfold encode_code_point; destruct (cp <=? 0xFFFF); cbn; lia|].
    intros rest. destruct (C03_utf16_roundtrip_partial cp rest Hscal) as [_ ->].
    destruct (N.leb_spec 0x10000 cp) as [Hge|Hlt]; cbn [andb]; [|reflexivity].
    destruct He as [He|He]; [lia|]. rewrite He. reflexivity.
Qed.

Lemma ascii_literal E inp cs pos : no_eof E cs -> (pos <= length inp)%nat ->
  exists ok k, cfl_ascii E inp cs pos = (ok, (pos + k)%nat) /\
    leading cs (map lower (skipn pos inp)) k /\
    (ok = true <-> exists consumed rest, skipn pos inp = consumed ++ rest /\ map lower consumed = cs) /\
    (ok = true -> k = length cs) /\ (pos + k <= length inp)%nat.
Proof.
  intros Hn Hp. unfold cfl_ascii, lit_try.
  assert (He : exact E lower inp (acf (raw E inp))).
  { split; [|repeat split]. intros p. rewrite raw_map_peek by apply lower_eof. reflexivity. }
  rewrite (exact_match_units E lower inp _ He), match_units_raw by exact Hn.
  cbn [acf o_current raw]. rewrite skipn_map.
  exists (common cs (map lower (skipn pos inp)) =? length cs)%nat, (common cs (map lower (skipn pos inp))).
  split; [reflexivity|]. split; [apply common_leading|]. split.
  - rewrite Nat.eqb_eq, common_full. split.
    + intros [r Hr]. exists (firstn (length cs) (skipn pos inp)), (skipn (length cs) (skipn pos inp)).
      split; [symmetry; apply firstn_skipn|]. rewrite <- firstn_map, Hr, firstn_app_exact. reflexivity.
    + intros (c & r & Hc & <-). rewrite Hc, map_app. now exists (map lower r).
  - split; [now intros ->%Nat.eqb_eq|].
    pose proof (common_bounds cs (map lower (skipn pos inp))) as [_ Hl]. rewrite map_length, skipn_length in Hl. lia.
Qed.

Lemma unicode_literal fold e inp lcps cps pos :
  e = Utf8 \/ e = Utf16 ->
  no_eof (Enc e) inp -> skipn pos inp = text e cps ->
  Forall (readable e) lcps -> Forall (readable e) cps -> Forall (fun c => readable e (fold c)) cps ->
  exists ok k, cfl_unicode fold e inp (lcp_string e lcps) pos = (ok, (pos + length (text e (firstn k cps)))%nat) /\
    leading lcps (map fold cps) k /\ (ok = true <-> k = length lcps).
Proof.
  intros He Hn Hs Hl Hc Hf.
  assert (Hd : forall l, Forall (readable e) l -> Forall (decodable e) l).
  { intros l. apply Forall_impl. intros a. apply readable_decodable. }
  destruct (unicode_lit fold e inp Hn lcps cps pos (Hd _ Hl) (Hd _ Hc)) as (s & Es & Ecur).
  { revert Hf. apply Forall_impl. intros a. apply readable_decodable. }
  { exact Hs. }
  exists (common lcps (map fold cps) =? length lcps)%nat, (common lcps (map fold cps)).
  split; [|split; [apply common_leading|apply Nat.eqb_eq]].
  destruct He as [-> | ->]; unfold cfl_unicode, lit_try; rewrite Es, Ecur; reflexivity.
Qed.

Lemma utf32_literal fold inp cs pos : no_eof (Enc Utf32) cs -> (pos <= length inp)%nat ->
  exists ok k, cfl_unicode fold Utf32 inp cs pos = (ok, (pos + k)%nat) /\
    leading cs (map (simple_case_fold fold) (skipn pos inp)) k /\
    (ok = true <-> k = length cs) /\ (pos + k <= length inp)%nat.
Proof.
  intros Hn Hp. unfold cfl_unicode, lit_try.
  set (g := simple_case_fold fold).
  assert (He : exact (Enc Utf32) g inp (suc32 fold (raw (Enc Utf32) inp))).
  { split; [|repeat split]. intros p. rewrite raw_map_peek by reflexivity. reflexivity. }
  rewrite (exact_match_units (Enc Utf32) g inp _ He), match_units_raw by exact Hn.
  cbn [suc32 o_current raw]. rewrite skipn_map.
  exists (common cs (map g (skipn pos inp)) =? length cs)%nat, (common cs (map g (skipn pos inp))).
  split; [reflexivity|]. split; [apply common_leading|]. split; [apply Nat.eqb_eq|].
  pose proof (common_bounds cs (map g (skipn pos inp))) as [_ Hl]. rewrite map_length, skipn_length in Hl. lia.
Qed.
