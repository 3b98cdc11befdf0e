(** A sample expression production, used by the examples and refutations of C45 to C47. *)
From Verif Require Import Prelude ExprModel ExprSpec ExprGrammar ExprMain.
Open Scope nat_scope.

(** ** A sample production: [+] and [*] left, [^] right associative, prefix [-], postfix
    [!], loosest first; atoms are the letters a to z. *)
Definition lit (c : N) : literal := Literal [c] (fun _ => true).
Definition sample : operation :=
  OOp 1 ILeft [lit 43] (OOp 2 ILeft [lit 42] (OOp 3 KPre [lit 45] (OOp 4 IRight [lit 94] (OOp 5 KPost [lit 33] OAtom)))).
Definition letter (input : list N) (p : nat) : bool * nat :=
  match nth_error input p with
  | Some c => if (N.leb 97 c && N.leb c 122)%bool then (true, 1) else (false, 0)
  | None => (false, 0)
  end.
Definition no_rest (id idx p : nat) : bool * nat := (true, 0).
(** "a+-b^c!*d" *)
Definition text1 : list N := [97; 43; 45; 98; 94; 99; 33; 42; 100]%N.
Definition tree1 : tree :=
  Inf (Leaf 0 1) (OpN 1 0 1 2 2)
    (Inf (Pre (OpN 3 0 2 3 3) (Inf (Leaf 3 4) (OpN 4 0 4 5 5) (Post (Leaf 5 6) (OpN 5 0 6 7 7))))
       (OpN 2 0 7 8 8) (Leaf 8 9)).

Lemma sample_ok : table_ok sample.
Proof.
  split.
  - cbn. repeat constructor; cbn; intuition congruence.
  - intros d x Hd Hx. unfold declared in Hd. cbn in Hd. repeat destruct Hd as [<-|Hd]; try contradiction;
      (destruct Hx as [<-|[]]; discriminate).
Qed.
Lemma lit_matches c d inp : matches (lit c) inp = true -> matches (lit d) inp = true -> c = d.
Proof.
  unfold matches. cbn. destruct inp as [|u inp]; [discriminate|]. cbn. rewrite !andb_true_r.
  intros H1 H2. apply N.eqb_eq in H1, H2. congruence.
Qed.
Lemma sample_unambiguous : unambiguous sample.
Proof.
  intros d d' i j x y inp Hd Hd' Hk Hx Hy Mx My. unfold declared in *. cbn in Hd, Hd'.
  repeat destruct Hd as [<-|Hd]; try contradiction; repeat destruct Hd' as [<-|Hd']; try contradiction; cbn in Hk; try discriminate;
  destruct i as [|[|i]]; try discriminate; destruct j as [|[|j]]; try discriminate; cbn in Hx, Hy;
  injection Hx as <-; injection Hy as <-; pose proof (lit_matches _ _ _ Mx My) as E; try discriminate; auto.
Qed.
Lemma sample_atoms input p n : letter input p = (true, n) ->
  forall d, declared sample d -> d_kind d = KPre -> absent input d p.
Proof.
  unfold letter. destruct (nth_error input p) as [c|] eqn:E; [|discriminate].
  destruct ((97 <=? c) && (c <=? 122))%N%bool eqn:Ec; [|discriminate]. intros _ d Hd Hk x Hx.
  unfold declared in Hd. cbn in Hd. repeat destruct Hd as [<-|Hd]; try contradiction; try discriminate.
  destruct Hx as [<-|[]]. unfold matches. apply nth_error_split in E. destruct E as (a & b & -> & <-).
  rewrite skipn_app, skipn_all, Nat.sub_diag. cbn. replace (45 =? c)%N with false; [reflexivity|].
  symmetry. apply N.eqb_neq. apply andb_true_iff in Ec. destruct Ec as (E1 & _). apply N.leb_le in E1. lia.
Qed.
Lemma sample_grammar : grammar sample tree1.
Proof.
  unfold sample, tree1. constructor; [reflexivity| |].
  - do 5 constructor. constructor.
  - constructor; [reflexivity| |repeat constructor].
    apply G_operand. constructor; [reflexivity|]. apply G_operand. constructor; [reflexivity|repeat constructor|].
    apply G_operand. constructor; [reflexivity|repeat constructor].
Qed.
Ltac text := match goal with |- op_text ?tbl _ _ ?o => exists (nth (o_id o - 1) (decls tbl 0 []) (Decl 0 ILeft [] 0 [])) end;
  eexists; split; [unfold declared; cbn; auto 8|];
  split; [reflexivity|]; split; [reflexivity|]; split; [reflexivity|];
  split; [intros y [<-|[]] _; auto|]; split; [reflexivity|]; eexists; split; reflexivity.
Lemma sample_reads : reads sample text1 (letter text1) no_rest tree1 0 9.
Proof.
  cbn [reads tree1]. repeat match goal with |- _ /\ _ => split end;
  try reflexivity; try (eexists; split; reflexivity); text.
Qed.
Lemma sample_unmixed : unmixed sample tree1.
Proof.
  exists []. cbn [ops tree1 app]. repeat apply Forall_cons; try apply Forall_nil;
  match goal with |- exists d, _ /\ d_id d = ?i /\ _ => exists (nth (i - 1) (decls sample 0 []) (Decl 0 ILeft [] 0 [])) end;
  unfold declared; cbn; auto 12.
Qed.

(** The chain a+a+...+a of [n] operators. *)
Fixpoint chain (n : nat) : list N := match n with O => [97]%N | S n => [97; 43]%N ++ chain n end.

Fixpoint chain_tree (k : nat) : tree :=
  match k with
  | O => Leaf 0 1
  | S k => Inf (chain_tree k) (OpN 1 0 (2 * k + 1) (2 * k + 2) (2 * k + 2)) (Leaf (2 * k + 2) (2 * k + 3))
  end.
Lemma chain_skip : forall j n, j <= n -> skipn (2 * j) (chain n) = chain (n - j).
Proof.
  induction j as [|j IH]; intros n L; [now rewrite Nat.sub_0_r|].
  destruct n as [|n]; [lia|]. replace (2 * S j) with (S (S (2 * j))) by lia. cbn [chain app skipn Nat.sub]. apply IH. lia.
Qed.
Lemma nth_error_skipn {A} : forall p (l : list A), nth_error l p = hd_error (skipn p l).
Proof. induction p as [|p IH]; intros [|x l]; cbn; auto. Qed.
Lemma chain_letter j n : j <= n -> letter (chain n) (2 * j) = (true, 1).
Proof. intros L. unfold letter. rewrite nth_error_skipn, chain_skip by exact L. destruct (n - j); reflexivity. Qed.
Lemma skipn_S {A} : forall p (l : list A), skipn (S p) l = tl (skipn p l).
Proof. induction p as [|p IH]; intros [|x l]; try reflexivity. change (skipn (S p) l = tl (skipn p l)). apply IH. Qed.
Lemma chain_op j n : j < n -> skipn (2 * j + 1) (chain n) = 43%N :: chain (n - S j).
Proof.
  intros L. rewrite Nat.add_1_r, skipn_S, chain_skip by lia. destruct (n - j) as [|m] eqn:E; [lia|].
  replace (n - S j) with m by lia. reflexivity.
Qed.
Lemma chain_reads n : forall k, k <= n -> reads sample (chain n) (letter (chain n)) no_rest (chain_tree k) 0 (2 * k + 1).
Proof.
  induction k as [|k IH]; intros L.
  - split; [reflexivity|]. split; [reflexivity|]. exists 1. split; [exact (chain_letter 0 n ltac:(lia))|reflexivity].
  - split; [|split].
    + apply IH. lia.
    + exists (Decl 1 ILeft [lit 43] 1 []), (lit 43). split; [left; reflexivity|]. split; [reflexivity|]. split; [reflexivity|].
      cbn [o_b o_m o_e o_id o_idx]. rewrite chain_op by lia. split; [reflexivity|].
      split; [intros y [<-|[]] _; auto|]. split; [cbn; lia|]. exists 0. split; [reflexivity|lia].
    + cbn [o_e]. split; [reflexivity|]. split; [lia|]. exists 1. split; [|lia].
      replace (2 * k + 2) with (2 * S k) by lia. apply chain_letter. exact L.
Qed.
Lemma chain_grammar : forall k, grammar sample (chain_tree k).
Proof.
  induction k as [|k IH]; [repeat constructor|]. cbn [chain_tree]. constructor; [reflexivity|exact IH|repeat constructor].
Qed.
Lemma chain_ops : forall k, Forall (fun q => q = 1) (ops (chain_tree k)).
Proof. induction k as [|k IH]; [constructor|]. cbn [chain_tree ops]. apply Forall_app. split; [exact IH|]. repeat constructor. Qed.
Lemma chain_unmixed k : unmixed sample (chain_tree k).
Proof.
  exists []. eapply Forall_impl; [|apply chain_ops]. intros q ->. exists (Decl 1 ILeft [lit 43] 1 []).
  split; [left; reflexivity|]. auto.
Qed.
Lemma chain_applications k : applications (chain_tree k) = k.
Proof. induction k as [|k IH]; [reflexivity|]. cbn [chain_tree applications]. lia. Qed.

Lemma chain_end n : skipn (2 * n + 1) (chain n) = [].
Proof. rewrite Nat.add_1_r, skipn_S, chain_skip, Nat.sub_diag by lia. reflexivity. Qed.
Lemma chain_rejected : forall n, exists fuel ok s,
  expr sample n (chain (S n)) (letter (chain (S n))) no_rest fuel sample 0 = Some (ok, s) /\ nesting_error (evs s).
Proof.
  intros n.
  destruct (expr_terminates sample sample_ok n (chain (S n)) (letter (chain (S n))) no_rest _ sample 0 (le_n _)) as (ok & s & E).
  do 3 eexists. split; [exact E|].
  apply (expr_limit sample n (chain (S n)) (letter (chain (S n))) no_rest (chain_tree (S n)) 0 (2 * S n + 1)
           sample_ok sample_unambiguous (sample_atoms _) (chain_reads _ _ (le_n _))
           (grammar_respects _ sample_ok _ (chain_grammar _)) (chain_unmixed _)) in E.
  - apply E. rewrite chain_applications. lia.
  - intros d Hd _ x Hx. rewrite chain_end. unfold declared in Hd. cbn in Hd.
    repeat destruct Hd as [<-|Hd]; try contradiction; (destruct Hx as [<-|[]]; reflexivity).
Qed.
