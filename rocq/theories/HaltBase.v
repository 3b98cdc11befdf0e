(** Eventually having an outcome: combinators for the proof that parsing ends. *)
From Verif Require Import Prelude RuleModel RuleSpec RuleDen RuleGood RuleMono RuleSem.
Close Scope N_scope.

Section Base.
Variable inp : list N.
Variable prods : nat -> production.
Notation eng := (eng inp prods).
Notation ev := (ev inp prods).
Notation ok := (ok inp).

(** From [s] the parser never goes back, nor leaves a level of recursion it did not enter. *)
Definition fw (s s' : st) : Prop := pos s <= pos s' <= length inp /\ depth s <= depth s'.

Definition gd (s : st) (d : dout) : Prop :=
  match d with DStop _ s' | DNext _ s' _ => fw s s' | DCr => True | DNo => False end.

(** With enough fuel the parser [F] always does the same, and does not run out of fuel. *)
Definition EvG (b : bool) (s : st) (F : engine -> cont -> list val -> res) : Prop :=
  exists d, gd s d /\ exists N, forall n, N <= n -> is_den b (F (eng n)) d.

Definition gr (s : st) (r : res) : Prop :=
  match r with Res _ s' m => fw s s' /\ m = 0 | Crash => True | NoFuel => False end.
Definition EvR (s : st) (F : engine -> res) : Prop := exists x, gr s x /\ ev F x.

Lemma fw_refl s : ok s -> fw s s.
Proof. unfold fw, RuleDen.ok. lia. Qed.
Lemma fw_trans s s1 s2 : fw s s1 -> fw s1 s2 -> fw s s2.
Proof. unfold fw. lia. Qed.
Lemma fw_ok s s' : fw s s' -> ok s'.
Proof. unfold fw, RuleDen.ok. lia. Qed.
Lemma fw_unlinks s l s' : fw s s' -> fw s (unlinks l s').
Proof. intros H. destruct (unlinks_eq l s') as [v ->]. exact H. Qed.

Lemma gd_l s s1 d : fw s s1 -> gd s1 d -> gd s d.
Proof. intros H. destruct d; cbn; auto; apply fw_trans; auto. Qed.
Lemma gr_l s s1 r : fw s s1 -> gr s1 r -> gr s r.
Proof. intros H. destruct r; cbn; auto. intros [H1 H2]. split; auto. eapply fw_trans; eauto. Qed.

Lemma G_l b s s1 F : fw s s1 -> EvG b s1 F -> EvG b s F.
Proof. intros H (d & Hd & HF). exists d. split; auto. eapply gd_l; eauto. Qed.
Lemma R_l s s1 F : fw s s1 -> EvR s1 F -> EvR s F.
Proof. intros H (d & Hd & HF). exists d. split; auto. eapply gr_l; eauto. Qed.

Lemma G_ext b s F F' : (forall E k a, k_nows k = b -> F E k a = F' E k a) -> EvG b s F' -> EvG b s F.
Proof.
  intros H (d & Hd & N & HN). exists d. split; auto. exists N. intros n Hn k a Hk.
  rewrite H by exact Hk. now apply HN.
Qed.
Lemma R_ext s F F' : (forall E, F E = F' E) -> EvR s F' -> EvR s F.
Proof. intros H (x & Hx & HN). exists x. split; auto. eapply ev_ext; eauto. Qed.

Lemma G_shift b s F : EvG b s (fun E => F (step inp prods E)) -> EvG b s F.
Proof.
  intros (d & Hd & N & HN). exists d. split; auto. exists (S N). intros [|n] Hn; [lia|].
  apply HN. lia.
Qed.
Lemma R_shift s F : EvR s (fun E => F (step inp prods E)) -> EvR s F.
Proof. intros (x & Hx & HN). exists x. split; auto. now apply ev_shift. Qed.

Lemma G_crash b s : EvG b s (fun _ _ _ => Crash).
Proof. exists DCr. split; [exact I|]. exists 0. intros n _ k a _. reflexivity. Qed.
Lemma G_false b s s' : fw s s' -> EvG b s (fun _ _ _ => Res OFalse s' 0).
Proof. intros H. exists (DStop SFalse s'). split; auto. exists 0. intros n _ k a _. reflexivity. Qed.
Lemma G_kv b s s1 vs : fw s s1 -> EvG b s (fun _ k a => k_fn k s1 (a ++ vs)).
Proof. intros H. exists (DNext [] s1 vs). split; auto. exists 0. intros n _ k a _. reflexivity. Qed.
Lemma G_k b s s1 : fw s s1 -> EvG b s (fun _ k a => k_fn k s1 a).
Proof.
  intros H. eapply G_ext; [|apply (G_kv b s s1 [] H)]. intros E k a _. cbn beta. now rewrite app_nil_r.
Qed.
Lemma R_crash s : EvR s (fun _ => Crash).
Proof. exists Crash. split; [exact I|]. now apply ev_const. Qed.
Lemma R_res s o s1 : fw s s1 -> EvR s (fun _ => Res o s1 0).
Proof. intros H. exists (Res o s1 0). split; [cbn; auto|]. now apply ev_const. Qed.

Lemma G_args b s F vs : EvG b s F -> EvG b s (fun E k a => F E k (a ++ vs)).
Proof.
  intros (d & Hd & N & HN).
  exists (match d with
          | DStop (STrue v) s => DStop (STrue (vs ++ v)) s
          | DStop (SItem i v) s => DStop (SItem i (vs ++ v)) s
          | DNext l s v => DNext l s (vs ++ v)
          | d => d
          end).
  split; [destruct d as [[]| | |]; exact Hd|]. exists N. intros n Hn k a Hk.
  rewrite (HN n Hn k (a ++ vs) Hk).
  destruct d as [[]| | |]; cbn; rewrite <- ?app_assoc; reflexivity.
Qed.

Lemma gd_dthen s s1 l d : fw s s1 -> gd s1 d -> gd s (dthen l d).
Proof.
  intros H. destruct d; cbn; auto; intros H1; [apply fw_unlinks|]; eapply fw_trans; eauto.
Qed.

Lemma G_posts b l s s1 F : fw s s1 -> EvG b s1 F -> EvG b s (fun E k a => posts l (F E k a)).
Proof.
  intros H (d & Hd & N & HN). exists (dthen l d). split; [eapply gd_dthen; eauto|].
  exists N. intros n Hn k a Hk. rewrite (HN n Hn k a Hk). apply apply_dthen.
Qed.

(** A parser run with a continuation built from the actual one. *)
Lemma G_bind b nb s P (F : engine -> cont -> cont) :
  EvG nb s P -> (forall E k, k_nows k = b -> k_nows (F E k) = nb) ->
  (forall s1, fw s s1 -> EvG b s1 (fun E k a => k_fn (F E k) s1 a)) ->
  EvG b s (fun E k a => P E (F E k) a).
Proof.
  intros (d & Hd & N & HN) HF HK. destruct d as [o s1|l s1 vs| |]; cbn [gd] in Hd.
  - exists (DStop o s1). split; auto. exists N. intros n Hn k a Hk. now rewrite (HN n Hn) by auto.
  - destruct (G_args _ _ _ vs (G_posts b l s s1 _ Hd (HK s1 Hd))) as (d & Hg & M & HM).
    exists d. split; auto. exists (N + M). intros n Hn k a Hk.
    rewrite (HN n) by (auto; lia). cbn [apply]. now apply (HM n); [lia|].
  - destruct Hd.
  - exists DCr. split; auto. exists N. intros n Hn k a Hk. now rewrite (HN n Hn) by auto.
Qed.

Lemma G_final s P : EvG false s P -> EvR s (fun E => P E final []).
Proof.
  intros (d & Hd & N & HN). exists (apply d final []). split.
  - destruct d as [o s1|l s1 vs| |]; cbn in *; auto.
    rewrite posts_Res. cbn. split; auto. now apply fw_unlinks.
  - exists N. intros n Hn. now apply (HN n Hn).
Qed.

(** A parser run with a continuation that does not depend on the actual one. *)
Lemma R_bind b s P (K : engine -> cont) a : EvG b s P -> (forall E, k_nows (K E) = b) ->
  (forall s1 vs, fw s s1 -> EvR s1 (fun E => k_fn (K E) s1 vs)) -> EvR s (fun E => P E (K E) a).
Proof.
  intros (d & Hd & N & HN) HK HR. destruct d as [o s1|l s1 vs| |]; cbn [gd] in Hd.
  - exists (Res (sto o a) s1 0). split; [cbn; auto|]. exists N. intros n Hn. now rewrite (HN n Hn) by auto.
  - destruct (HR s1 (a ++ vs) Hd) as (x & Hx & M & HM). exists (posts l x). split.
    + destruct x; cbn in Hx; rewrite ?posts_Res, ?posts_Crash; cbn; try tauto.
      destruct Hx as [Hx ->]. split; auto. apply fw_unlinks. eapply fw_trans; eauto.
    + exists (N + M). intros n Hn. rewrite (HN n) by (auto; lia). cbn [apply]. rewrite HM by lia. reflexivity.
  - destruct Hd.
  - exists Crash. split; [exact I|]. exists N. intros n Hn. now rewrite (HN n Hn) by auto.
Qed.

(** Case analysis on a value that is eventually computed. *)
Lemma G_on {A} b s (X : engine -> A) x (J : engine -> A -> cont -> list val -> res) : ev X x ->
  EvG b s (fun E => J E x) -> EvG b s (fun E k a => J E (X E) k a).
Proof.
  intros [N HN] (d & Hd & M & HM). exists d. split; auto. exists (N + M). intros n Hn k a Hk.
  rewrite HN by lia. now apply HM; [lia|].
Qed.
Lemma R_on {A} s (X : engine -> A) x (J : engine -> A -> res) : ev X x ->
  EvR s (fun E => J E x) -> EvR s (fun E => J E (X E)).
Proof.
  intros [N HN] (d & Hd & M & HM). exists d. split; auto. exists (N + M). intros n Hn.
  rewrite HN by lia. now apply HM; lia.
Qed.

Lemma G_delim b s X (J : engine -> cont -> list val -> st -> list val -> res) :
  EvR s X ->
  (forall s1 vs, fw s s1 -> ev X (Res (OTrue vs) s1 0) -> EvG b s1 (fun E k a => J E k a s1 vs)) ->
  EvG b s (fun E k a => delim (X E) (J E k a)).
Proof.
  intros (x & Hx & He) HJ.
  apply (G_on b s X x (fun E x k a => delim x (J E k a)) He).
  destruct x as [[] s1 m| |]; cbn [gr] in Hx; cbn [delim]; try apply G_crash; try tauto;
    destruct Hx as [Hx ->].
  - now apply G_false.
  - eapply G_l; [exact Hx|]. now apply HJ.
Qed.
Lemma R_delim s X (J : engine -> st -> list val -> res) :
  EvR s X ->
  (forall s1 vs, fw s s1 -> ev X (Res (OTrue vs) s1 0) -> EvR s1 (fun E => J E s1 vs)) ->
  EvR s (fun E => delim (X E) (J E)).
Proof.
  intros (x & Hx & He) HJ.
  apply (R_on s X x (fun E x => delim x (J E)) He).
  destruct x as [[] s1 m| |]; cbn [gr] in Hx; cbn [delim]; try apply R_crash; try tauto;
    destruct Hx as [Hx ->].
  - now apply R_res.
  - eapply R_l; [exact Hx|]. now apply HJ.
Qed.
Lemma R_orelse s X (J : engine -> st -> list val -> res) (O : engine -> st -> res) :
  EvR s X ->
  (forall s1 vs, fw s s1 -> ev X (Res (OTrue vs) s1 0) -> EvR s1 (fun E => J E s1 vs)) ->
  (forall s1, fw s s1 -> ev X (Res OFalse s1 0) -> EvR s1 (fun E => O E s1)) ->
  EvR s (fun E => orelse (X E) (J E) (O E)).
Proof.
  intros (x & Hx & He) HJ HO.
  apply (R_on s X x (fun E x => orelse x (J E) (O E)) He).
  destruct x as [[] s1 m| |]; cbn [gr] in Hx; cbn [orelse]; try apply R_crash; try tauto;
    destruct Hx as [Hx ->]; (eapply R_l; [exact Hx|]); auto.
Qed.
Lemma G_orelse b s X (J : engine -> cont -> list val -> st -> list val -> res)
    (O : engine -> cont -> list val -> st -> res) :
  EvR s X ->
  (forall s1 vs, fw s s1 -> ev X (Res (OTrue vs) s1 0) -> EvG b s1 (fun E k a => J E k a s1 vs)) ->
  (forall s1, fw s s1 -> ev X (Res OFalse s1 0) -> EvG b s1 (fun E k a => O E k a s1)) ->
  EvG b s (fun E k a => orelse (X E) (J E k a) (O E k a)).
Proof.
  intros (x & Hx & He) HJ HO.
  apply (G_on b s X x (fun E x k a => orelse x (J E k a) (O E k a)) He).
  destruct x as [[] s1 m| |]; cbn [gr] in Hx; cbn [orelse]; try apply G_crash; try tauto;
    destruct Hx as [Hx ->]; (eapply G_l; [exact Hx|]); auto.
Qed.

(** ** What is to be shown of a rule *)
Definition TH (r : rule) : Prop := forall vs p, p <= length inp ->
  exists x, x <> BNoFuel /\ ev (fun E => e_try E r vs p) x.
Definition CH (r : rule) : Prop := forall b, exists es, ev (fun E => e_cancel E r b) (Some es).
Definition MH (r : rule) : Prop := forall p, p <= length inp ->
  exists x, x <> TNoFuel /\ ev (fun E => tmatch inp E r p) x.
Definition PH (c : cx) (r : rule) (s : st) : Prop :=
  forall b, EvG b s (fun E k a => e_parse E c r k s a).
Definition FH (c : cx) (r : rule) (s : st) : Prop :=
  forall b bs, ev (fun E => e_try E r (vars s) (pos s)) (BR true bs) ->
  EvG b s (fun E k a => e_finish E c r bs k s a).

Definition WH (c : cx) : Prop :=
  match cx_ws c with
  | None => True
  | Some w => forall s, ok s -> forall b (J : engine -> cont -> list val -> st -> res),
      (forall s1, fw s s1 -> EvG b s1 (fun E k a => J E k a s1)) ->
      EvG b s (fun E k a => skip_ws E w s (J E k a))
  end.

Definition deep (c : cx) (d : nat) (s : st) : Prop := ok s /\ cx_max c - depth s <= d.

Lemma deep_fw c d s s' : deep c d s -> fw s s' -> deep c d s'.
Proof. unfold deep, fw, RuleDen.ok. lia. Qed.

Definition full (c : cx) (d : nat) (r : rule) : Prop :=
  TH r /\ CH r /\ forall s, deep c d s -> PH c r s /\ FH c r s.

Lemma G_try b s r (A B : engine -> bst -> cont -> list val -> res) : TH r -> ok s ->
  (forall bs, ev (fun E => e_try E r (vars s) (pos s)) (BR true bs) -> EvG b s (fun E k a => A E bs k a)) ->
  (forall bs, ev (fun E => e_try E r (vars s) (pos s)) (BR false bs) -> EvG b s (fun E k a => B E bs k a)) ->
  EvG b s (fun E k a => match e_try E r (vars s) (pos s) with
                        | BR true bs => A E bs k a
                        | BR false bs => B E bs k a
                        | BNoFuel => NoFuel
                        | BCrash => Crash
                        end).
Proof.
  intros HT Hs HA HB. destruct (HT (vars s) (pos s) Hs) as (x & Hx & He).
  apply (G_on b s (fun E => e_try E r (vars s) (pos s)) x
           (fun E x k a => match x with BR true bs => A E bs k a | BR false bs => B E bs k a
                           | BNoFuel => NoFuel | BCrash => Crash end) He).
  destruct x as [[|] bs| |]; auto; [congruence|apply G_crash].
Qed.
Lemma R_try s r (A B : engine -> bst -> res) : TH r -> ok s ->
  (forall bs, ev (fun E => e_try E r (vars s) (pos s)) (BR true bs) -> EvR s (fun E => A E bs)) ->
  (forall bs, ev (fun E => e_try E r (vars s) (pos s)) (BR false bs) -> EvR s (fun E => B E bs)) ->
  EvR s (fun E => match e_try E r (vars s) (pos s) with
                        | BR true bs => A E bs
                        | BR false bs => B E bs
                        | BNoFuel => NoFuel
                        | BCrash => Crash
                        end).
Proof.
  intros HT Hs HA HB. destruct (HT (vars s) (pos s) Hs) as (x & Hx & He).
  apply (R_on s (fun E => e_try E r (vars s) (pos s)) x
           (fun E x => match x with BR true bs => A E bs | BR false bs => B E bs
                           | BNoFuel => NoFuel | BCrash => Crash end) He).
  destruct x as [[|] bs| |]; auto; [congruence|apply R_crash].
Qed.

Lemma G_cancel b s r bs (J : engine -> cont -> list val -> st -> res) : CH r ->
  (forall es, EvG b s (fun E k a => J E k a (emits es s))) ->
  EvG b s (fun E k a => cancel_then E r bs s (J E k a)).
Proof.
  intros HC HJ. destruct (HC bs) as (es & He).
  apply (G_on b s (fun E => e_cancel E r bs) (Some es)
           (fun E x k a => match x with Some es => J E k a (emits es s) | None => NoFuel end) He).
  apply HJ.
Qed.
Lemma R_cancel s r bs (J : engine -> st -> res) : CH r ->
  (forall es, EvR s (fun E => J E (emits es s))) ->
  EvR s (fun E => cancel_then E r bs s (J E)).
Proof.
  intros HC HJ. destruct (HC bs) as (es & He).
  apply (R_on s (fun E => e_cancel E r bs) (Some es)
           (fun E x => match x with Some es => J E (emits es s) | None => NoFuel end) He).
  apply HJ.
Qed.

Lemma match_bounds t p f e : p <= length inp -> ev (fun E => tmatch inp E t p) (TR f e) ->
  p <= e <= length inp.
Proof.
  intros Hp He. apply ev_at in He. destruct He as [n He].
  exact (tmatch_bounds inp prods _ (eng_good inp prods n) t p f e Hp He).
Qed.

Lemma G_match b s t (A : engine -> bool -> nat -> cont -> list val -> res) : MH t -> ok s ->
  (forall f e, pos s <= e <= length inp -> EvG b s (fun E k a => A E f e k a)) ->
  EvG b s (fun E k a => match tmatch inp E t (pos s) with
                        | TR f e => A E f e k a | TNoFuel => NoFuel | TCrash => Crash end).
Proof.
  intros HM Hs HA. destruct (HM (pos s) Hs) as (x & Hx & He).
  apply (G_on b s (fun E => tmatch inp E t (pos s)) x
           (fun E x k a => match x with TR f e => A E f e k a
                           | TNoFuel => NoFuel | TCrash => Crash end) He).
  destruct x as [f e| |]; [|congruence|apply G_crash].
  apply HA. eapply match_bounds; eauto.
Qed.

Lemma G_token b s t (J : engine -> cont -> list val -> nat -> st -> res) : MH t -> ok s ->
  (forall e s1, fw s s1 -> pos s <= e <= length inp -> EvG b s1 (fun E k a => J E k a e s1)) ->
  EvG b s (fun E k a => token_parse inp E t s (J E k a)).
Proof.
  intros HM Hs HJ. unfold token_parse.
  eapply G_ext; [|apply (G_match b s t (fun E f e k a =>
    if f then J E k a e (setpos e (emit (EToken (tkind_of t) (pos s) e) s))
    else Res OFalse (setpos e (emit (terror inp t (pos s) e) (emit (EToken KError (pos s) e) s))) 0) HM Hs)].
  - intros E k a _. cbn beta. destruct (tmatch inp E t (pos s)) as [[|] e| |]; reflexivity.
  - intros [|] e He.
    + assert (Hf : fw s (setpos e (emit (EToken (tkind_of t) (pos s) e) s))) by (unfold fw; cbn; lia).
      eapply G_l; [exact Hf|]. apply HJ; auto.
    + apply G_false. unfold fw. cbn. lia.
Qed.

Lemma G_ws b c s : WH c -> ok s -> EvG b s (fun E k a => ws_then E c k s a).
Proof.
  intros HW Hs. unfold ws_then, WH in *. destruct (cx_ws c) as [w|].
  - eapply G_ext with (F' := fun E k a => if b || negb (wsf s) then k_fn k s a
                                         else skip_ws E w s (fun s => k_fn k s a)).
    { intros E k a ->. reflexivity. }
    destruct (b || negb (wsf s)).
    + apply G_k. now apply fw_refl.
    + apply (HW s Hs b (fun E k a s => k_fn k s a)). intros s1 H1. apply G_k.
      apply fw_refl. eapply fw_ok; eauto.
  - apply G_k. now apply fw_refl.
Qed.

Lemma G_ws_cont b nb c s (F : engine -> cont -> cont) : WH c -> ok s ->
  (forall E k, k_nows k = b -> k_nows (F E k) = nb) ->
  (forall s1, fw s s1 -> EvG b s1 (fun E k a => k_fn (F E k) s1 a)) ->
  EvG b s (fun E k a => ws_then E c (F E k) s a).
Proof.
  intros HW Hs HF HK. apply (G_bind b nb s (fun E k a => ws_then E c k s a) F); auto.
  now apply G_ws.
Qed.

End Base.
