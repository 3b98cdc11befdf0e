(** Proofs about the Unicode tables.  A fact about all code points is checked by
    evaluating it for each of them, block by block; blocks whose code points have the same
    row are checked at once. *)
From Verif Require Import Prelude CodecModel SwarModel LitModel ClassModel UniTables UniModel.
Open Scope N_scope.

(** ** Checking every code point *)
Definition row : Type := category_t * (N * Z).
Definition rows : list row := combine category (combine binary_properties case_folding_offset).

(** Blocks of 256 code points that all have the same row, and the row. *)
Definition uniform_pieces : list (N * N) := [(101, 56); (60, 145); (17, 40); (33, 7); (39, 14); (59, 144)].
Fixpoint uniform (s : N) (l : list (N * N)) : option N :=
  match l with
  | [] => None
  | (s', i) :: l => if s' =? s then Some i else uniform s l
  end.

(** [P] is checked for every code point of a block, or for a block with one row at once by [PB]. *)
Section Check.
Variable P PB : N -> row -> bool.
Hypothesis PB_ok : forall c r k, PB c r = true -> k < 256 -> P (c + k) r = true.
Fixpoint all_low (c : N) (l : list N) : bool :=
  match l with
  | [] => true
  | i :: l' => match nth_error rows (N.to_nat i) with
               | Some r => if P c r then all_low (c + 1) l' else false
               | None => false
               end
  end.
Fixpoint all_high (c : N) (starts : list N) : bool :=
  match starts with
  | [] => true
  | s :: r => match uniform s uniform_pieces with
              | Some i => match nth_error rows (N.to_nat i) with
                          | Some w => if PB c w then all_high (c + 256) r else false
                          | None => false
                          end
              | None => match nth_error blocks_pieces (N.to_nat s) with
                        | Some b => if all_low c b then all_high (c + 256) r else false
                        | None => false
                        end
              end
  end.

Lemma all_low_nth : forall l c k, all_low c l = true -> (k < length l)%nat ->
  exists i r, nth_error l k = Some i /\ nth_error rows (N.to_nat i) = Some r /\
    P (c + N.of_nat k) r = true.
Proof.
  induction l as [|i l IH]; intros c k H Hk; cbn [all_low length] in *; [lia|].
  destruct (nth_error rows (N.to_nat i)) as [r|] eqn:Er; [|discriminate].
  destruct (P c r) eqn:EP; [|discriminate].
  destruct k as [|k].
  - exists i, r. rewrite N.add_0_r. auto.
  - destruct (IH (c + 1) k H ltac:(lia)) as (j & q & H1 & H2 & H3).
    exists j, q. cbn [nth_error]. split; [exact H1|]. split; [exact H2|].
    replace (c + N.of_nat (S k)) with (c + 1 + N.of_nat k) by lia. exact H3.
Qed.

Lemma uniform_ok : forall s i, uniform s uniform_pieces = Some i ->
  exists b, nth_error blocks_pieces (N.to_nat s) = Some b /\ forall k, (k < 256)%nat -> nth_error b k = Some i.
Proof.
  assert (H : forallb (fun x => match nth_error blocks_pieces (N.to_nat (fst x)) with
                                | Some b => (length b =? 256)%nat && forallb (N.eqb (snd x)) b
                                | None => false end) uniform_pieces = true) by (vm_compute; reflexivity).
  rewrite forallb_forall in H. intros s i Hu.
  assert (Hin : In (s, i) uniform_pieces).
  { clear H. revert Hu. induction uniform_pieces as [|(s', i') l IH]; cbn [uniform]; [discriminate|].
    destruct (s' =? s) eqn:E; [intros [= <-]; left; f_equal; lia|right; auto]. }
  specialize (H _ Hin). cbn [fst snd] in H. destruct (nth_error blocks_pieces (N.to_nat s)) as [b|]; [|discriminate].
  exists b. split; [reflexivity|]. apply andb_prop in H. destruct H as (Hl & Hf). intros k Hk.
  apply Nat.eqb_eq in Hl. rewrite forallb_forall in Hf.
  destruct (nth_error b k) as [j|] eqn:E; [|apply nth_error_None in E; lia].
  f_equal. apply nth_error_In in E. specialize (Hf _ E). lia.
Qed.

Lemma all_high_nth : forall l c k, all_high c l = true -> (k < length l)%nat ->
  exists s b, nth_error l k = Some s /\ nth_error blocks_pieces (N.to_nat s) = Some b /\
    forall j, (j < 256)%nat -> (j < length b)%nat ->
    exists i r, nth_error b j = Some i /\ nth_error rows (N.to_nat i) = Some r /\
      P (c + 256 * N.of_nat k + N.of_nat j) r = true.
Proof.
  induction l as [|s l IH]; intros c k H Hk; cbn [all_high length] in *; [lia|].
  assert (Hrest : all_high (c + 256) l = true).
  { destruct (uniform s uniform_pieces) as [i|].
    - destruct (nth_error rows (N.to_nat i)) as [w|]; [|discriminate]. destruct (PB c w); [exact H|discriminate].
    - destruct (nth_error blocks_pieces (N.to_nat s)) as [b|]; [|discriminate]. destruct (all_low c b); [exact H|discriminate]. }
  destruct k as [|k].
  - replace (c + 256 * N.of_nat 0) with c by lia. cbn [nth_error]. exists s.
    destruct (uniform s uniform_pieces) as [i|] eqn:Eu.
    + destruct (uniform_ok _ _ Eu) as (b & Eb & Hb). exists b. split; [reflexivity|]. split; [exact Eb|].
      intros j Hj _. destruct (nth_error rows (N.to_nat i)) as [w|] eqn:Ew; [|discriminate].
      exists i, w. split; [now apply Hb|]. split; [exact Ew|]. destruct (PB c w) eqn:Ep; [|discriminate]. apply PB_ok; [exact Ep|lia].
    + destruct (nth_error blocks_pieces (N.to_nat s)) as [b|]; [|discriminate]. destruct (all_low c b) eqn:El; [|discriminate].
      exists b. split; [reflexivity|]. split; [reflexivity|]. intros j _ Hj. now apply all_low_nth.
  - destruct (IH (c + 256) k Hrest ltac:(lia)) as (j & q & H1 & H2 & H3).
    exists j, q. cbn [nth_error]. split; [exact H1|]. split; [exact H2|].
    replace (c + 256 * N.of_nat (S k)) with (c + 256 + 256 * N.of_nat k) by lia. exact H3.
Qed.
End Check.

Lemma nth_concat : forall (L : list (list N)) n k j b,
  Forall (fun l => length l = n) L -> nth_error L k = Some b -> (j < n)%nat ->
  nth_error (concat L) (k * n + j) = nth_error b j.
Proof.
  induction L as [|l L IH]; intros n k j b HF Hb Hj; [destruct k; discriminate|].
  inversion HF as [|? ? Hl HF']; subst. cbn [concat].
  destruct k as [|k]; cbn [nth_error] in Hb.
  - injection Hb as <-. cbn. apply nth_error_app1. exact Hj.
  - rewrite nth_error_app2 by (cbn; lia).
    replace (S k * length l + j - length l)%nat with (k * length l + j)%nat by (cbn; lia).
    apply IH; assumption.
Qed.

Lemma pieces_256 : Forall (fun l => length l = 256%nat) blocks_pieces.
Proof.
  apply Forall_forall. intros l Hl.
  assert (H : forallb (fun l => (length l =? 256)%nat) blocks_pieces = true) by (vm_compute; reflexivity).
  rewrite forallb_forall in H. apply Nat.eqb_eq. apply H. exact Hl.
Qed.
Lemma starts_length : N.of_nat (length block_starts) = 0x1100.
Proof. vm_compute. reflexivity. Qed.

(** Some row of the tables belongs to the code point, and what was checked for all code
    points holds for it. *)
Definition row_of (cp : N) (r : row) : Prop :=
  exists idx, property_index cp = Some idx /\ array_at category idx = Some (fst r) /\
    array_at binary_properties idx = Some (fst (snd r)) /\
    array_at case_folding_offset idx = Some (snd (snd r)).

Lemma combine_nth_error : forall (A B : Type) (a : list A) (b : list B) k x y,
  nth_error (combine a b) k = Some (x, y) -> nth_error a k = Some x /\ nth_error b k = Some y.
Proof.
  induction a as [|u a IH]; intros b k x y H; [destruct k; discriminate|].
  destruct b as [|v b]; [destruct k; discriminate|].
  destruct k as [|k]; cbn in *; [injection H as <- <-; auto|]. apply IH. exact H.
Qed.

Lemma checked : forall P PB, (forall c r k, PB c r = true -> k < 256 -> P (c + k) r = true) ->
  all_high P PB 0 block_starts = true ->
  forall cp, cp <= 0x10FFFF -> exists r, row_of cp r /\ P cp r = true.
Proof.
  intros P PB HPB HP cp Hcp.
  assert (Hhi : N.land (N.shiftr cp 8) 0xFFFF = cp / 256).
  { rewrite N.shiftr_div_pow2. change (2 ^ 8) with 256. change 0xFFFF with (N.ones 16).
    rewrite N.land_ones. apply N.mod_small. change (2 ^ 16) with 65536.
    apply N.div_lt_upper_bound; lia. }
  assert (Hlo : N.land cp 0xFF = cp mod 256).
  { change 0xFF with (N.ones 8). rewrite N.land_ones. reflexivity. }
  assert (Hd : cp = 256 * (cp / 256) + cp mod 256) by (apply N.div_mod; lia).
  assert (Hm : cp mod 256 < 256) by (apply N.mod_lt; lia).
  set (hi := cp / 256) in *. set (lo := cp mod 256) in *.
  assert (Hhi' : hi < 0x1100) by lia.
  destruct (all_high_nth P PB HPB block_starts 0 (N.to_nat hi) HP) as (s & b & H1 & H2 & H3).
  { pose proof starts_length. lia. }
  assert (Hb : length b = 256%nat).
  { pose proof pieces_256 as F. rewrite Forall_forall in F. apply F. eapply nth_error_In. exact H2. }
  destruct (H3 (N.to_nat lo)) as (i & r & H4 & H5 & H6); [lia|lia|].
  rewrite !N2Nat.id in H6. replace (0 + 256 * hi + lo) with cp in H6 by lia.
  exists r. split; [|exact H6]. exists i.
  destruct r as (k & (p & o)).
  destruct (combine_nth_error _ _ _ _ _ _ _ H5) as (K1 & K2).
  destruct (combine_nth_error _ _ _ _ _ _ _ K2) as (K3 & K4).
  unfold array_at. split; [|auto].
  unfold property_index. assert (El : (cp <=? 0x10FFFF) = true) by (apply N.leb_le; exact Hcp).
  rewrite El, Hhi, Hlo. unfold array_at. rewrite H1. cbn [then_].
  replace (N.to_nat (s * 256 + lo)) with (N.to_nat s * 256 + N.to_nat lo)%nat by lia.
  unfold blocks. rewrite (nth_concat _ 256 _ _ b pieces_256 H2) by lia. exact H4.
Qed.

Lemma row_unique : forall cp r r', row_of cp r -> row_of cp r' -> r = r'.
Proof.
  intros cp (k & (p & o)) (k' & (p' & o')) (i & A & B & C & D) (i' & A' & B' & C' & D').
  cbn in *. rewrite A in A'. injection A' as <-. congruence.
Qed.

Lemma checked_row : forall P PB, (forall c r k, PB c r = true -> k < 256 -> P (c + k) r = true) ->
  all_high P PB 0 block_starts = true ->
  forall cp r, row_of cp r -> P cp r = true.
Proof.
  intros P PB HPB HP cp r Hr.
  assert (Hcp : cp <= 0x10FFFF).
  { destruct Hr as (i & H & _). unfold property_index in H.
    destruct (cp <=? 0x10FFFF) eqn:E; [lia|discriminate]. }
  destruct (checked P PB HPB HP cp Hcp) as (r' & Hr' & H). rewrite (row_unique _ _ _ Hr Hr'). exact H.
Qed.
Lemma has_row : forall cp, cp <= 0x10FFFF -> exists r, row_of cp r.
Proof.
  intros cp H. destruct (checked (fun _ _ => true) (fun _ _ => true) ltac:(auto) ltac:(vm_compute; reflexivity) cp H) as (r & Hr & _).
  exists r. exact Hr.
Qed.
