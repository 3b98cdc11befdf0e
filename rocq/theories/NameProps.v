(** C82: names of productions and of errors. *)
From Verif Require Import Prelude NameModel NameSpec NameProofs.
From Coq Require Import String List.
Close Scope N_scope.

(** The name of a production, and the message of a generic error, is the qualified name of its
    type without the top-level namespace.  An anonymous namespace around it does not count. *)
Theorem C82_name_partial : forall k f cs, Forall identifier cs -> cs <> [] -> spells k f (qualified cs) ->
  type_name k (Unnamed f) 1 = Some (documented cs ++ [0%N]) /\
  reads (documented cs ++ [0%N]) 0 (documented cs).
Proof.
  intros k f cs HF Hne HS. rewrite (type_name_qualified k f cs 1 HF Hne HS), without_1. split; [reflexivity|].
  split; [exists []; now rewrite app_nil_r|]. rewrite <- without_1. apply qualified_not; [now apply without_idents|unfold ident_unit; lia|lia].
Qed.
Print Assumptions C82_name_partial.

(** With any number of namespaces to remove: the last component always stays. *)
Theorem C82_namespaces : forall k f cs n, Forall identifier cs -> cs <> [] -> spells k f (qualified cs) ->
  exists outer inner, cs = outer ++ inner /\ inner <> [] /\ List.length outer = Nat.min n (List.length cs - 1) /\
    type_name k (Unnamed f) n = Some (qualified inner ++ [0%N]).
Proof.
  intros k f cs n HF Hne HS. set (i := Nat.min n (List.length cs - 1)).
  assert (Hl : List.length cs <> 0) by (destruct cs; [contradiction|discriminate]).
  exists (firstn i cs), (skipn i cs). split; [symmetry; apply firstn_skipn|]. split; [|split].
  - intros He. apply (f_equal (@List.length _)) in He. rewrite skipn_length in He. cbn in He. unfold i in He. lia.
  - rewrite firstn_length. unfold i. lia.
  - exact (type_name_qualified k f cs n HF Hne HS).
Qed.
Print Assumptions C82_namespaces.

(** Not so if the type has template arguments: the namespace stays. *)
Theorem C82_template_refuted : forall k, exists f,
  spells k f (codes "grammar::" ++ codes "list<int>") /\
  type_name k (Unnamed f) 1 = Some (codes "grammar::list<int>" ++ [0%N]).
Proof.
  intros k. set (w := match k with Msvc => codes "struct " | _ => [] end).
  exists (codes (pre k) ++ (w ++ codes "grammar::list<int>") ++ codes (suf k) ++ [0%N]). split.
  - exists w, []. split; [destruct k; [reflexivity|reflexivity|now left]|]. split; [now left|reflexivity].
  - destruct k; vm_compute; reflexivity.
Qed.
Print Assumptions C82_template_refuted.

(** [is] of a generic error: whether the error was made for that tag.  It is decided by the names
    of the tags. *)
Theorem C82_is : forall k f f' cs cs', Forall identifier cs -> cs <> [] -> spells k f (qualified cs) ->
  Forall identifier cs' -> cs' <> [] -> spells k f' (qualified cs') ->
  exists msg r, type_name k (Unnamed f) 1 = Some msg /\ error_is k msg (Unnamed f') = Some r /\
    (r = true <-> documented cs = documented cs').
Proof.
  intros k f f' cs cs' HF Hne HS HF' Hne' HS'.
  destruct (C82_name_partial k f cs HF Hne HS) as [H1 R1]. destruct (C82_name_partial k f' cs' HF' Hne' HS') as [H2 [_ R2]].
  destruct (is_spec k _ _ _ _ _ _ R1 H2 R2 eq_refl eq_refl) as (r & Hr & H). exists (documented cs ++ [0%N]), r. auto.
Qed.
Print Assumptions C82_is.

(** So tags of one namespace, and tags without a namespace, are told apart. *)
Theorem C82_is_partial : forall k f f' ns cs cs', identifier ns -> Forall identifier cs -> cs <> [] ->
  Forall identifier cs' -> cs' <> [] ->
  spells k f (qualified (ns :: cs)) -> spells k f' (qualified (ns :: cs')) ->
  exists msg r, type_name k (Unnamed f) 1 = Some msg /\ error_is k msg (Unnamed f') = Some r /\ (r = true <-> cs = cs').
Proof.
  intros k f f' ns cs cs' Hn HF Hne HF' Hne' HS HS'.
  destruct (C82_is k f f' (ns :: cs) (ns :: cs')) as (msg & r & H1 & H2 & H3); auto; try discriminate.
  exists msg, r. split; [exact H1|]. split; [exact H2|]. rewrite H3.
  destruct cs as [|c cs]; [contradiction|]. destruct cs' as [|c' cs']; [contradiction|].
  split; [|congruence]. intros H. apply qualified_inj; auto.
Qed.
Print Assumptions C82_is_partial.

(** Tags of different namespaces are not: an error made for [a::missing] is [b::missing], too. *)
Theorem C82_is_refuted : forall k, exists f f' msg,
  spells k f (qualified [codes "a"; codes "missing"]) /\ spells k f' (qualified [codes "b"; codes "missing"]) /\ f <> f' /\
  type_name k (Unnamed f) 1 = Some msg /\ error_is k msg (Unnamed f') = Some true.
Proof.
  intros k. set (w := match k with Msvc => codes "struct " | _ => [] end).
  exists (codes (pre k) ++ (w ++ codes "a::missing") ++ codes (suf k) ++ [0%N]),
         (codes (pre k) ++ (w ++ codes "b::missing") ++ codes (suf k) ++ [0%N]), (codes "missing" ++ [0%N]).
  assert (Hw : keyword k w) by (destruct k; [reflexivity|reflexivity|now left]).
  split; [|split; [|split; [|split]]].
  - exists w, []. split; [exact Hw|]. split; [now left|reflexivity].
  - exists w, []. split; [exact Hw|]. split; [now left|reflexivity].
  - destruct k; vm_compute; discriminate.
  - destruct k; vm_compute; reflexivity.
  - destruct k; vm_compute; reflexivity.
Qed.
Print Assumptions C82_is_refuted.

(** The strings this is made of. *)
Theorem C82_strings : forall v w, good v -> good w ->
  (exists r, sv_eq v w = Some r /\ (r = true <-> text v = text w)) /\
  (forall n, n <= sv_size v -> exists u, sv_remove_prefix v n = Some u /\ good u /\ text u = skipn n (text v)) /\
  (forall n, n <= sv_size v -> exists u, sv_remove_suffix v n = Some u /\ good u /\ text u = firstn (sv_size v - n) (text v)) /\
  (forall i n, i < sv_size v -> exists u, sv_substr v i n = Some u /\ good u /\ text u = firstn n (skipn i (text v))) /\
  (forall p, exists r, sv_find v w p = Some r /\
     match r with
     | Some j => p <= j < sv_size v /\ stands (text w) (text v) j /\ forall j', p <= j' < j -> ~ stands (text w) (text v) j'
     | None => forall j, p <= j < sv_size v -> ~ stands (text w) (text v) j
     end) /\
  (text v <> [] -> exists r, sv_starts_with v w = Some r /\ (r = true <-> begins (text w) (text v))) /\
  (~ In 0%N (text v) -> exists a, make_cstr v = Some a /\ reads a 0 (text v)) /\
  (sv_nt v = true -> ~ In 0%N (text v) -> exists p, sv_c_str v = Some p /\ reads (sv_buf v) p (text v)).
Proof.
  intros v w Hv Hw. split; [now apply eq_spec|]. split; [|split; [|split; [|split; [|split; [|split]]]]].
  - intros n Hn. destruct (remove_prefix_spec v n Hv Hn) as (u & H1 & H2 & H3 & _). eauto.
  - intros n Hn. now apply remove_suffix_spec.
  - intros i n Hi. now apply substr_spec.
  - intros p. destruct (find_spec v w p Hv Hw) as [(j & H)|[H H']]; [exists (Some j); tauto|exists None; tauto].
  - intros Hn. apply starts_with_spec; auto. intros He. apply Hn. apply length_zero_iff_nil. now rewrite text_len.
  - intros H0. rewrite make_cstr_spec by assumption. eexists. split; [reflexivity|]. split; [exists []; now rewrite app_nil_r|exact H0].
  - intros Hn H0. unfold sv_c_str, require. rewrite Hn. cbn [bind]. eexists. split; [reflexivity|]. split; [|exact H0].
    destruct Hv as [H1 H2]. specialize (H2 Hn). rewrite <- nth_skip in H2.
    exists (skipn (S (sv_size v)) (skipn (sv_ptr v) (sv_buf v))). unfold text.
    rewrite <- (firstn_skipn (sv_size v) (skipn (sv_ptr v) (sv_buf v))) at 1. rewrite <- app_assoc. f_equal. cbn [app].
    revert H2. generalize (skipn (sv_ptr v) (sv_buf v)) as l. generalize (sv_size v) as i. clear.
    induction i as [|i IH]; intros [|x l] Hx; try discriminate; cbn in *; [congruence|now apply IH].
Qed.
Print Assumptions C82_strings.

(** Constructing from a C string shows that string. *)
Theorem C82_c_string : forall b p s, reads b p s -> exists v, sv_cstr b p = Some v /\ good v /\ text v = s /\ sv_nt v = true.
Proof.
  intros b p s H. pose proof (cstr_sv b p s H) as E. eexists. split; [exact E|].
  split; [exact (proj1 (cstr_good _ _ _ E))|]. split; [exact (cstr_text _ _ _ _ H E)|reflexivity].
Qed.
Print Assumptions C82_c_string.

(** Constructing from pointers, and reading single units. *)
Theorem C82_constructors : forall b p n, p + n <= List.length b ->
  (text sv_empty = [] /\ good sv_empty) /\
  (good (sv_sized b p n) /\ text (sv_sized b p n) = slice b p n) /\
  (exists v, sv_range b p (p + n) = Some v /\ good v /\ text v = slice b p n) /\
  (0 < n -> sv_range b (p + n) p = None) /\
  (nth_error b (p + n) = Some 0%N -> exists v, sv_terminated b p n = Some v /\ good v /\ text v = slice b p n /\ sv_nt v = true) /\
  (nth_error b (p + n) <> Some 0%N -> sv_terminated b p n = None).
Proof.
  intros b p n H. split; [split; [reflexivity|split; cbn; [lia|reflexivity]]|].
  split; [split; [split; cbn; [lia|discriminate]|reflexivity]|]. split; [|split; [|split]].
  - unfold sv_range, require. rewrite (proj2 (Nat.leb_le p (p + n))) by lia. cbn [bind]. eexists. split; [reflexivity|].
    split; [split; cbn; [lia|discriminate]|]. unfold text, slice. cbn. f_equal. lia.
  - intros Hn. unfold sv_range, require. rewrite (proj2 (Nat.leb_gt (p + n) p)) by lia. reflexivity.
  - intros H0. unfold sv_terminated, rd, require. rewrite H0. cbn. eexists. split; [reflexivity|].
    split; [split; [exact H|intros _; exact H0]|]. split; reflexivity.
  - intros H0. unfold sv_terminated, rd, require. destruct (nth_error b (p + n)) as [u|]; [|reflexivity]. cbn [bind].
    destruct (u =? 0)%N eqn:Hu; [|reflexivity]. apply N.eqb_eq in Hu. congruence.
Qed.
Print Assumptions C82_constructors.

Theorem C82_access : forall v w, good v -> good w ->
  (forall i u, nth_error (text v) i = Some u -> sv_at v i = Some u) /\
  (sv_nt v = true -> sv_at v (List.length (text v)) = Some 0%N) /\
  (forall u r, text v = u :: r -> sv_front v = Some u) /\
  (forall u r, text v = r ++ [u] -> sv_back v = Some u) /\
  (text v = [] -> sv_front v = None /\ sv_back v = None) /\
  (forall i, List.length (text v) < i -> sv_at v i = None /\ sv_remove_prefix v i = None /\ sv_remove_suffix v i = None) /\
  (text v <> [] -> exists u, good u /\
     ((sv_try_remove_prefix v w = Some (true, u) /\ text v = text w ++ text u) \/
      (sv_try_remove_prefix v w = Some (false, v) /\ ~ begins (text w) (text v)))).
Proof.
  intros v w Hv Hw. pose proof (text_len v Hv) as Hl. split; [|split; [|split; [|split; [|split; [|split]]]]].
  - intros i u Hu. rewrite at_text; auto. rewrite <- Hl. apply nth_error_Some. congruence.
  - intros Hn. unfold sv_at, require. rewrite Hl, Nat.leb_refl. cbn [bind]. now apply Hv.
  - intros u r Ht. rewrite Ht in Hl. cbn in Hl. unfold sv_front, require. rewrite (proj2 (Nat.eqb_neq (sv_size v) 0)) by lia. cbn [negb bind].
    replace (sv_ptr v) with (sv_ptr v + 0) by lia. rewrite rd_text, Ht by (auto; lia). reflexivity.
  - intros u r Ht. rewrite Ht, app_length in Hl. cbn in Hl. unfold sv_back, require. rewrite (proj2 (Nat.eqb_neq (sv_size v) 0)) by lia. cbn [negb bind].
    rewrite rd_text, Ht, nth_error_app2 by (auto; lia). replace (sv_size v - 1 - List.length r) with 0 by lia. reflexivity.
  - intros Ht. rewrite Ht in Hl. cbn in Hl. unfold sv_front, sv_back, require. rewrite <- Hl. split; reflexivity.
  - intros i Hi. rewrite Hl in Hi. unfold sv_at, sv_remove_prefix, sv_remove_suffix, require. rewrite (proj2 (Nat.leb_gt i (sv_size v))) by lia. repeat split.
  - intros Hn. destruct (try_remove_prefix_spec v w Hv Hw) as (u & Hu & _ & [H|(H1 & -> & H2)]).
    + intros He. apply Hn. apply length_zero_iff_nil. lia.
    + eauto.
    + exists v. auto.
Qed.
Print Assumptions C82_access.

(** On an empty string, asking for any prefix (also the empty one) violates a precondition. *)
Theorem C82_empty_refuted : forall v w, good v -> text v = [] -> sv_starts_with v w = None.
Proof.
  intros v w Hv He. pose proof (text_len v Hv) as Hl. rewrite He in Hl. unfold sv_starts_with, sv_substr, require.
  rewrite <- Hl. reflexivity.
Qed.
Print Assumptions C82_empty_refuted.

(** Not vacuous. *)
Definition f_gcc : list N := codes (pre Gcc) ++ ([] ++ codes (anon Gcc) ++ codes "grammar::inner::number") ++ codes (suf Gcc) ++ [0%N].
Definition path : list (list N) := [codes "grammar"; codes "inner"; codes "number"].
Example C82_example : Forall identifier path /\ path <> [] /\ spells Gcc f_gcc (qualified path) /\
  documented path = codes "inner::number" /\
  type_name Gcc (Unnamed f_gcc) 1 = Some (codes "inner::number" ++ [0%N]) /\
  type_name Gcc (Unnamed f_gcc) 7 = Some (codes "number" ++ [0%N]).
Proof.
  split; [|split; [discriminate|split; [|split; [reflexivity|split; vm_compute; reflexivity]]]].
  - assert (HX : forall s, forallb (fun u => (97 <=? u)%N && (u <=? 122)%N) (codes s) = true -> codes s <> [] -> identifier (codes s)).
    { intros s H Hn. split; [exact Hn|]. apply Forall_forall. intros u Hu. rewrite forallb_forall in H. apply H in Hu. unfold ident_unit. lia. }
    unfold path. apply Forall_cons; [|apply Forall_cons; [|apply Forall_cons; [|apply Forall_nil]]]; (apply HX; [vm_compute; reflexivity|vm_compute; discriminate]).
  - exists [], (codes (anon Gcc)). split; [reflexivity|]. split; [now right|reflexivity].
Qed.
Example C82_string_example : exists v w, good v /\ good w /\ sv_nt v = true /\ sv_find v w 1 = Some (Some 4) /\ sv_find v w 6 = Some None.
Proof.
  exists (Sv (cstr "::ab:::c") 0 8 true), (Sv (cstr "::") 0 2 true).
  split; [split; cbn; [lia|reflexivity]|]. split; [split; cbn; [lia|reflexivity]|]. split; [reflexivity|]. split; vm_compute; reflexivity.
Qed.
