(** C81: what parses without error is what the grammar describes. *)
From Verif Require Import Prelude RuleModel RuleLists LangSpec LangSound LangComplete LangSame HaltSpec RuleSample HaltProps.
From Verif Require RuleMono RuleSem.
From Coq Require Import String.
Close Scope string_scope.
Close Scope N_scope.

(** Parsing the production [p] succeeds, without any error, with the values [vs], at [q]. *)
Definition parses (inp : list N) (prods : nat -> production) (p : nat) (vs : list val) (q : nat) (n : nat) : Prop :=
  exists s m, action inp prods n p = Res (OTrue vs) s m /\ pos s = q /\ forall e, In e (trace s) -> is_err e = false.

Lemma clean_in es : existsb is_err es = false <-> forall e, In e es -> is_err e = false.
Proof.
  split.
  - intros H e He. destruct (is_err e) eqn:Hx; [|reflexivity]. rewrite <- H. symmetry. apply existsb_exists. eauto.
  - intros H. destruct (existsb is_err es) eqn:Hx; [|reflexivity]. apply existsb_exists in Hx as (e & He & Hx). rewrite (H e He) in Hx. discriminate.
Qed.

(** More fuel does not change the outcome. *)
Lemma action_mono inp prods p n m : n <= m -> action inp prods n p <> NoFuel -> action inp prods m p = action inp prods n p.
Proof.
  intros Hl Hn. unfold action in *.
  assert (H : RuleSem.mono inp prods NoFuel (fun E => do_action prods E (Cx (p_ws (prods p)) (p_max (prods p))) p (St 0 0 true [] []))).
  { apply RuleSem.rr_mono. intros E E' HE. pose proof (RuleMono.par_do_action prods true E E' HE [] (Cx (p_ws (prods p)) (p_max (prods p))) p (St 0 0 true [] [])) as H.
    now rewrite RuleMono.addt_nil in H. }
  destruct (H n m Hl) as [H1|H1]; congruence.
Qed.

(** What parses without error is described by the grammar, with the same values and the same end;
    and all that is described parses, with every big enough amount of fuel. *)
Theorem C81_accepts : forall inp prods, described_grammar prods -> forall p vs q,
  (forall n, parses inp prods p vs q n -> Accepts inp prods p vs q) /\
  (Accepts inp prods p vs q -> exists n, forall m, n <= m -> parses inp prods p vs q m).
Proof.
  intros inp prods HG p vs q. split.
  - intros n (s & m & H & <- & Hc). eapply action_sound; eauto. now apply clean_in.
  - intros H. destruct (action_complete inp prods p vs q H) as [n Hn]. exists n. intros m Hm.
    destruct (Hn m Hm) as (s & Hs & Hp & Hc). exists s, 0. repeat split; auto. now apply clean_in.
Qed.
Print Assumptions C81_accepts.

(** The grammar is not ambiguous: an input is described in one way at most. *)
Theorem C81_unambiguous : forall inp prods p vs q vs' q',
  Accepts inp prods p vs q -> Accepts inp prods p vs' q' -> vs = vs' /\ q = q'.
Proof.
  intros inp prods p vs q vs' q' H H'.
  apply action_complete in H. apply action_complete in H'. destruct H as [n Hn], H' as [n' Hn'].
  destruct (Hn (Nat.max n n')) as (s & Hs & Hq & _); [lia|]. destruct (Hn' (Nat.max n n')) as (s' & Hs' & Hq' & _); [lia|].
  rewrite Hs in Hs'. injection Hs' as <- <-. subst. auto.
Qed.
Print Assumptions C81_unambiguous.

(** If parsing ends (C79), it decides whether the grammar describes the input. *)
Theorem C81_decides : forall inp prods, described_grammar prods -> forall p, ends inp prods p ->
  exists n, (exists vs q, parses inp prods p vs q n) <-> (exists vs q, Accepts inp prods p vs q).
Proof.
  intros inp prods HG p (n & x & _ & Hx). exists n. split; intros (vs & q & H).
  - exists vs, q. destruct (C81_accepts inp prods HG p vs q) as [HA _]. eauto.
  - exists vs, q. destruct (C81_accepts inp prods HG p vs q) as [_ HA]. destruct (HA H) as [m Hm].
    destruct (Hm (Nat.max n m)) as (s & k & Hs & H1 & H2); [lia|]. exists s, k. split; [|auto].
    rewrite (Hx n), <- (Hx (Nat.max n m)) by lia. exact Hs.
Qed.
Print Assumptions C81_decides.

(** Tags of errors, recovery and what limits it, and the kinds of tokens do not matter for it: an
    input without errors gives the same values. *)
Theorem C81_recovery : forall inp prods prods', described_grammar prods -> alike_grammar prods prods' ->
  forall p vs q n, parses inp prods p vs q n -> exists n', forall m, n' <= m -> parses inp prods' p vs q m.
Proof.
  intros inp prods prods' HG HA p vs q n H. destruct (C81_accepts inp prods HG p vs q) as [H1 _].
  apply H1 in H. apply (accepts_same inp prods prods' HA) in H.
  destruct (action_complete inp prods' p vs q H) as [n' Hn]. exists n'. intros m Hm.
  destruct (Hn m Hm) as (s & Hs & Hp & Hc). exists s, 0. repeat split; auto. now apply clean_in.
Qed.
Print Assumptions C81_recovery.

(** Values in parentheses, nested lists: the samples of C37 and C79. *)
Example C81_samples : described_grammar values /\ described_grammar nested.
Proof. split; intros [|[|p]]; (split; [cbn; auto 10|intros w [= <-]; cbn; auto]). Qed.

Example C81_values : parses (str " 1 , (2)") values 0
  [VSink [[VProd 1 [VLex 1 2]]; [VProd 1 [VProd 1 [VLex 6 7]]]]] 8 40 /\
  Accepts (str " 1 , (2)") values 0 [VSink [[VProd 1 [VLex 1 2]]; [VProd 1 [VProd 1 [VLex 6 7]]]]] 8.
Proof.
  assert (H : parses (str " 1 , (2)") values 0 [VSink [[VProd 1 [VLex 1 2]]; [VProd 1 [VProd 1 [VLex 6 7]]]]] 8 40).
  { eexists; eexists. split; [vm_compute; reflexivity|]. split; [reflexivity|]. apply clean_in. reflexivity. }
  split; [exact H|]. apply (C81_accepts (str " 1 , (2)") values (proj1 C81_samples) 0 _ 8) in H. exact H.
Qed.

(** A broken value is recovered, so the parse goes on; but the grammar does not describe it. *)
Example C81_broken : (exists s m vs, action (str "1,(x)") values 40 0 = Res (OTrue vs) s m /\ pos s = 5) /\
  ~ exists vs q, Accepts (str "1,(x)") values 0 vs q.
Proof.
  split; [do 3 eexists; split; [vm_compute; reflexivity|reflexivity]|].
  intros (vs & q & H). apply action_complete in H. destruct H as [n Hn].
  destruct (Hn (Nat.max 40 n)) as (s & Hs & _ & Hc); [lia|].
  rewrite (action_mono (str "1,(x)") values 0 40 (Nat.max 40 n)) in Hs; [|lia|vm_compute; discriminate].
  vm_compute in Hs. injection Hs as _ <-. discriminate Hc.
Qed.

(** Only recovery differs: without it, the same inputs are accepted. *)
Definition strict (p : nat) : production :=
  match p with
  | 0 => values 0
  | _ => plain (RChc [RCap digit; RBr (lit "(") [RTryT None (RRec 1 (TUser 5)) None; lit ")"]])
  end.
Example C81_strict : alike_grammar values strict /\
  exists n, parses (str " 1 , (2)") strict 0 [VSink [[VProd 1 [VLex 1 2]]; [VProd 1 [VProd 1 [VLex 6 7]]]]] 8 n.
Proof.
  assert (H : alike_grammar values strict).
  { intros [|p]; (split; [cbn; repeat constructor; auto|repeat split; auto; cbn; repeat constructor]). }
  split; [exact H|].
  destruct (C81_recovery (str " 1 , (2)") values strict (proj1 C81_samples) H 0 _ 8 40 (proj1 C81_values)) as [n Hn].
  exists n. apply Hn. lia.
Qed.

(** Flags, a number, and that many digits, if a semicolon follows somewhere: "rw 3 4,5,6,;". *)
Definition letter (l : list N) : option Z :=
  match l with [114%N] => Some 4%Z | [119%N] => Some 2%Z | _ => None end.
Definition number (l : list N) : option Z :=
  match l with [u] => if (48 <=? u)%N && (u <=? 57)%N then Some (Z.of_N u - 48)%Z else None | _ => None end.
Definition any : rule := RTok (class_tok (KUser 2) (TUser 2) (fun u => (97 <=? u)%N && (u <=? 122)%N)).
Definition counted (p : nat) : production :=
  spaced (RSeq [RLook (lit_finder (str ";") []) (TUser 3); RFlags (RSym any letter (TUser 4)) 0 (TUser 5);
                RRep RepList (RSym digit number (TUser 6)) (RCap digit) (Some (lit ",", STrail)); lit ";"]).
Example C81_counted : described_grammar counted /\
  parses (str "rw 3 4,5,6,;") counted 0 [VInt 6; VSink [[VLex 5 6]; [VLex 7 8]; [VLex 9 10]]] 12 40 /\
  Accepts (str "rw 3 4,5,6,;") counted 0 [VInt 6; VSink [[VLex 5 6]; [VLex 7 8]; [VLex 9 10]]] 12 /\
  (forall s, In s ["rr 1 4;"; "rw 3 4,5;"; "r1 4"; "x 1 4;"]%string -> ~ exists vs q, Accepts (str s) counted 0 vs q).
Proof.
  assert (HG : described_grammar counted) by (intros p; split; [cbn; auto 10|intros w [= <-]; exact I]).
  assert (HP : parses (str "rw 3 4,5,6,;") counted 0 [VInt 6; VSink [[VLex 5 6]; [VLex 7 8]; [VLex 9 10]]] 12 40).
  { eexists; eexists. split; [vm_compute; reflexivity|]. split; [reflexivity|]. apply clean_in. reflexivity. }
  split; [exact HG|]. split; [exact HP|].
  split; [destruct (C81_accepts (str "rw 3 4,5,6,;") counted HG 0 [VInt 6; VSink [[VLex 5 6]; [VLex 7 8]; [VLex 9 10]]] 12) as [HA _]; eauto|].
  assert (HX : forall s, match action (str s) counted 40 0 with
      | Res (OTrue _) st _ => existsb is_err (trace st) | Res _ _ _ => true | _ => false end = true ->
    ~ exists vs q, Accepts (str s) counted 0 vs q).
  { intros s Hs (vs & q & H). apply action_complete in H. destruct H as [n Hn].
    destruct (Hn (Nat.max 40 n)) as (st & Hst & _ & Hc); [lia|].
    rewrite (action_mono (str s) counted 0 40 (Nat.max 40 n)) in Hst; [|lia|intros H; rewrite H in Hs; discriminate].
    rewrite Hst in Hs. unfold clean in Hc. congruence. }
  intros s [<-|[<-|[<-|[<-|[]]]]]; apply HX; vm_compute; reflexivity.
Qed.

(** A nested grammar of a combination and a partial one: "c b a;wr", each item once. *)
Definition mixed (p : nat) : production :=
  match p with
  | 0 => plain (RSub 1)
  | _ => spaced (RSeq [RComb TDup None [RBr (lit "a") [RPos]; lit "b"; RCap (lit "c")]; lit ";";
                       RComb TDup (Some RBreak) [RCap (lit "r"); RCap (lit "w"); RCap (lit "x")]])
  end.
Example C81_mixed : described_grammar mixed /\
  parses (str "c b a;wr") mixed 0 [VProd 1 [VSink [[VLex 0 1]; [VPos 5]]; VSink [[VLex 6 7]; [VLex 7 8]]]] 8 40 /\
  Accepts (str "c b a;wr") mixed 0 [VProd 1 [VSink [[VLex 0 1]; [VPos 5]]; VSink [[VLex 6 7]; [VLex 7 8]]]] 8 /\
  (forall s, In s ["aba;"; "ab;w"; "abc;ww"]%string -> ~ exists vs q, Accepts (str s) mixed 0 vs q).
Proof.
  assert (HG : described_grammar mixed) by (intros [|p]; (split; [cbn; auto 20|intros w [= <-]; exact I])).
  assert (HP : parses (str "c b a;wr") mixed 0 [VProd 1 [VSink [[VLex 0 1]; [VPos 5]]; VSink [[VLex 6 7]; [VLex 7 8]]]] 8 40).
  { eexists; eexists. split; [vm_compute; reflexivity|]. split; [reflexivity|]. apply clean_in. reflexivity. }
  split; [exact HG|]. split; [exact HP|].
  split; [destruct (C81_accepts (str "c b a;wr") mixed HG 0 [VProd 1 [VSink [[VLex 0 1]; [VPos 5]]; VSink [[VLex 6 7]; [VLex 7 8]]]] 8) as [HA _]; eauto|].
  assert (HX : forall s, match action (str s) mixed 40 0 with
      | Res (OTrue _) st _ => existsb is_err (trace st) | Res _ _ _ => true | _ => false end = true ->
    ~ exists vs q, Accepts (str s) mixed 0 vs q).
  { intros s Hs (vs & q & H). apply action_complete in H. destruct H as [n Hn].
    destruct (Hn (Nat.max 40 n)) as (st & Hst & _ & Hc); [lia|].
    rewrite (action_mono (str s) mixed 0 40 (Nat.max 40 n)) in Hst; [|lia|intros H; rewrite H in Hs; discriminate].
    rewrite Hst in Hs. unfold clean in Hc. congruence. }
  intros s [<-|[<-|[<-|[]]]]; apply HX; vm_compute; reflexivity.
Qed.

(** A loop over digits and pairs, left at a bracket or where an "x" and a digit follow: "[1 (2) 3]",
    "[1x2", each followed by a position. *)
Definition looped (p : nat) : production :=
  spaced (RSeq [lit "["; RLoop (RChc [digit; RBr (lit "(") [digit; lit ")"]; RBr (lit "]") [RBreak];
                                      RBr (lit "x") [RCap digit; RBreak]]); RPos]).
Example C81_looped : described_grammar looped /\
  parses (str "[1 (2) 3]") looped 0 [VPos 9] 9 40 /\ parses (str "[1x2") looped 0 [VPos 4] 4 40 /\
  Accepts (str "[1 (2) 3]") looped 0 [VPos 9] 9 /\ Accepts (str "[1x2") looped 0 [VPos 4] 4 /\
  (forall s, In s ["[1 2"; "[(1 2)]"; "[1xx"; "[y]"]%string -> ~ exists vs q, Accepts (str s) looped 0 vs q).
Proof.
  assert (HG : described_grammar looped) by (intros p; split; [cbn; auto 20|intros w [= <-]; exact I]).
  assert (HP : parses (str "[1 (2) 3]") looped 0 [VPos 9] 9 40).
  { eexists; eexists. split; [vm_compute; reflexivity|]. split; [reflexivity|]. apply clean_in. reflexivity. }
  assert (HQ : parses (str "[1x2") looped 0 [VPos 4] 4 40).
  { eexists; eexists. split; [vm_compute; reflexivity|]. split; [reflexivity|]. apply clean_in. reflexivity. }
  split; [exact HG|]. split; [exact HP|]. split; [exact HQ|].
  split; [destruct (C81_accepts (str "[1 (2) 3]") looped HG 0 [VPos 9] 9) as [HA _]; eauto|].
  split; [destruct (C81_accepts (str "[1x2") looped HG 0 [VPos 4] 4) as [HA _]; eauto|].
  assert (HX : forall s, match action (str s) looped 40 0 with
      | Res (OTrue _) st _ => existsb is_err (trace st) | Res _ _ _ => true | _ => false end = true ->
    ~ exists vs q, Accepts (str s) looped 0 vs q).
  { intros s Hs (vs & q & H). apply action_complete in H. destruct H as [n Hn].
    destruct (Hn (Nat.max 40 n)) as (st & Hst & _ & Hc); [lia|].
    rewrite (action_mono (str s) looped 0 40 (Nat.max 40 n)) in Hst; [|lia|intros H; rewrite H in Hs; discriminate].
    rewrite Hst in Hs. unfold clean in Hc. congruence. }
  intros s [<-|[<-|[<-|[<-|[]]]]]; apply HX; vm_compute; reflexivity.
Qed.

(** A combination of one rule. *)
Definition single (p : nat) : production := spaced (RSeq [RComb TDup None [RBr (lit "x") [RCap digit]]; lit ";"]).
Example C81_single : described_grammar single /\
  parses (str "x 7;") single 0 [VSink [[VLex 2 3]]] 4 40 /\ Accepts (str "x 7;") single 0 [VSink [[VLex 2 3]]] 4.
Proof.
  assert (HG : described_grammar single) by (intros p; split; [cbn; auto 20|intros w [= <-]; exact I]).
  assert (HP : parses (str "x 7;") single 0 [VSink [[VLex 2 3]]] 4 40).
  { eexists; eexists. split; [vm_compute; reflexivity|]. split; [reflexivity|]. apply clean_in. reflexivity. }
  split; [exact HG|]. split; [exact HP|]. destruct (C81_accepts (str "x 7;") single HG 0 [VSink [[VLex 2 3]]] 4) as [HA _]. eauto.
Qed.
