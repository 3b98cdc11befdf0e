(** What the Unicode tables are checked for, code point by code point. *)
From Verif Require Import Prelude CodecModel SwarModel LitModel LitSpec ClassModel UniTables
  UniModel UniProofs.
Open Scope N_scope.

Lemma category_eqb_eq : forall a b, category_eqb a b = true <-> a = b.
Proof.
  intros a b. split; [|intros ->; destruct b; reflexivity].
  destruct a, b; intros H; try reflexivity; discriminate H.
Qed.
Lemma category_eqb_refl : forall a, category_eqb a a = true.
Proof. intros a. apply category_eqb_eq. reflexivity. Qed.

(** ** What the tables are checked for *)
Definition bit (p i : N) : bool := negb (N.land p (N.lor (N.shiftl 1 i) 0) =? 0).
Definition is_in (k : category_t) (ks : list category_t) : bool := existsb (category_eqb k) ks.
Definition row_good (cp : N) (r : row) : bool :=
  let '(k, (p, o)) := r in
  Bool.eqb (is_control cp) (category_eqb k Cc) &&
  Bool.eqb (cp_is_surrogate cp) (category_eqb k Cs) &&
  Bool.eqb (is_private_use cp) (category_eqb k Co) &&
  implb (is_noncharacter cp) (category_eqb k Cn) &&
  Bool.eqb (bit p whitespace)
    (category_eqb k Zs || existsb (N.eqb cp) [0x09; 0x0D; 0x0A; 0x85; 0x2028; 0x2029; 0x0C; 0x0B]) &&
  Bool.eqb (bit p join_control) (existsb (N.eqb cp) [0x200C; 0x200D]) &&
  Bool.eqb (category_eqb k Zl) (cp =? 0x2028) &&
  Bool.eqb (category_eqb k Zp) (cp =? 0x2029) &&
  negb (bit p uppercase && bit p lowercase) &&
  implb (bit p uppercase || bit p lowercase) (bit p alphabetic) &&
  implb (category_eqb k Lu) (bit p uppercase) &&
  implb (category_eqb k Ll) (bit p lowercase) &&
  implb (is_in k [Lu; Ll; Lt; Lm; Lo; Nl]) (bit p alphabetic) &&
  implb (bit p alphabetic) (is_in k [Lu; Ll; Lt; Lm; Lo; Nl; Mn; Mc; So]) &&
  implb (bit p xid_start) (bit p xid_continue) &&
  implb (bit p xid_start) (bit p alphabetic || existsb (N.eqb cp) [0x2118; 0x212E]) &&
  implb (is_in k [Nd; Pc; Mn; Mc]) (bit p xid_continue) &&
  implb (bit p whitespace) (negb (bit p xid_continue) && negb (bit p alphabetic)) &&
  implb (category_eqb k Cn) ((p =? 0) && (o =? 0)%Z).

(** Blocks in which nothing depends on the code point, except that some may be noncharacters. *)
Definition plain_block (c : N) : bool :=
  (c mod 256 =? 0) && (0x100 <=? c) && ((c <? 0x2000) || (0x2200 <=? c)) && negb (c =? 0xFD00) &&
  ((c <? 0xF0000) || negb (c mod 0x10000 =? 0xFF00)).
Definition row_good_block (c : N) (r : row) : bool :=
  plain_block c && (negb (c mod 0x10000 =? 0xFF00) || category_eqb (fst r) Cn) && row_good c r.
Lemma land_plane : forall c, N.land c 0xFFFF = c mod 0x10000.
Proof. intros c. change 0xFFFF with (N.ones 16). rewrite N.land_ones. reflexivity. Qed.
Lemma plain_same : forall c k, plain_block c = true -> k < 256 ->
  is_control (c + k) = is_control c /\ cp_is_surrogate (c + k) = cp_is_surrogate c /\
  is_private_use (c + k) = is_private_use c /\
  (c mod 0x10000 <> 0xFF00 -> is_noncharacter (c + k) = is_noncharacter c) /\
  (forall x, x < 0x100 \/ 0x2000 <= x < 0x2200 -> (c + k =? x) = false /\ (c =? x) = false).
Proof.
  intros c k H Hk. unfold plain_block in H. split; [unfold is_control; lia|]. split; [unfold cp_is_surrogate; lia|].
  split; [unfold is_private_use; lia|]. split; [|lia]. intros Hp. unfold is_noncharacter. rewrite !land_plane.
  destruct ((0xFDD0 <=? c + k) && (c + k <=? 0xFDEF)) eqn:E1; destruct ((0xFDD0 <=? c) && (c <=? 0xFDEF)) eqn:E2; try lia.
Qed.
Lemma row_good_block_ok : forall c r k, row_good_block c r = true -> k < 256 -> row_good (c + k) r = true.
Proof.
  intros c (g & (p & o)) k H Hk. unfold row_good_block in H. apply andb_prop in H. destruct H as (H & Hr).
  apply andb_prop in H. destruct H as (H & Hn). cbn [fst] in Hn.
  destruct (plain_same c k H Hk) as (E1 & E2 & E3 & E4 & E5).
  assert (E6 : implb (is_noncharacter (c + k)) (category_eqb g Cn) = implb (is_noncharacter c) (category_eqb g Cn)).
  { destruct (category_eqb g Cn) eqn:Eg; [now destruct (is_noncharacter (c + k)), (is_noncharacter c)|].
    rewrite E4; [reflexivity|]. lia. }
  unfold row_good in *. cbn [existsb] in *.
  rewrite E1, E2, E3, E6.
  repeat match goal with |- context [c + k =? ?x] => destruct (E5 x ltac:(lia)) as (-> & E) ; rewrite E in Hr; clear E end.
  exact Hr.
Qed.
Lemma rows_good : all_high row_good row_good_block 0 block_starts = true.
Proof. vm_cast_no_check (eq_refl true). Qed.

Definition fold_good (cp : N) (r : row) : bool :=
  let '(k, (p, o)) := r in
  let d := Z.to_N ((Z.of_N cp + o) mod 2 ^ 32) in
  (if cp <? 128 then d =? lower cp else true) &&
  (if (o =? 0)%Z then true
   else
     cp_is_scalar cp && cp_is_scalar d && negb (d =? cp) && (d / 0x10000 =? cp / 0x10000) &&
     implb (d <? 128) ((cp <? 128) || (cp =? 0x17F) || (cp =? 0x212A)) &&
     bit p alphabetic &&
     match property_index d with
     | Some j =>
       match nth_error rows (N.to_nat j) with
       | Some (k', (p', o')) =>
         (o' =? 0)%Z && bit p' alphabetic && Bool.eqb (bit p' xid_continue) (bit p xid_continue) &&
         implb (bit p xid_start) (bit p' xid_start)
       | None => false
       end
     | None => false
     end).

Definition fold_good_block (c : N) (r : row) : bool := (0x80 <=? c) && (snd (snd r) =? 0)%Z.
Lemma fold_good_block_ok : forall c r k, fold_good_block c r = true -> k < 256 -> fold_good (c + k) r = true.
Proof.
  intros c (g & (p & o)) k H Hk. unfold fold_good_block in H. apply andb_prop in H. cbn [snd] in H. destruct H as (H & Hr).
  unfold fold_good. rewrite Hr. replace (c + k <? 128) with false by lia. reflexivity.
Qed.
Lemma folds_good : all_high fold_good fold_good_block 0 block_starts = true.
Proof. vm_cast_no_check (eq_refl true). Qed.

(** ** Reading the tables *)
Lemma row_valid : forall cp r, row_of cp r -> cp <= 0x10FFFF.
Proof.
  intros cp r (i & H & _). unfold property_index in H.
  destruct (cp <=? 0x10FFFF) eqn:E; [lia|discriminate].
Qed.
Lemma row_category : forall cp k po, row_of cp (k, po) -> general_category cp = Some k.
Proof.
  intros cp k po H. pose proof (row_valid _ _ H) as Hv. destruct H as (i & A & B & _).
  unfold general_category, cp_is_valid. assert (E : (cp <=? 0x10FFFF) = true) by lia.
  rewrite E. cbn [negb]. rewrite A. cbn [then_]. exact B.
Qed.
Lemma row_property : forall cp k p o b, row_of cp (k, (p, o)) ->
  code_point_has_properties [b] cp = Some (bit p b).
Proof.
  intros cp k p o b (i & A & _ & C & _). unfold code_point_has_properties.
  cbn [map fold_right]. rewrite A. cbn [then_]. cbn [fst snd] in C. rewrite C. reflexivity.
Qed.
Lemma row_fold : forall cp k p o, row_of cp (k, (p, o)) ->
  simple_case_fold_db cp = Some (Z.to_N ((Z.of_N cp + o) mod 2 ^ 32)).
Proof.
  intros cp k p o H. pose proof (row_valid _ _ H) as Hv. destruct H as (i & A & _ & _ & D).
  unfold simple_case_fold_db, cp_is_valid. assert (E : (cp <=? 0x10FFFF) = true) by lia.
  rewrite E. cbn [negb]. rewrite A. cbn [then_ fst snd] in *. rewrite D. reflexivity.
Qed.
Lemma row_two : forall cp k p o a b, row_of cp (k, (p, o)) ->
  code_point_has_properties [a; b] cp = Some (bit p a || bit p b).
Proof.
  intros cp k p o a b (i & A & _ & C & _). unfold code_point_has_properties.
  cbn [map fold_right]. rewrite A. cbn [then_]. cbn [fst snd] in C. rewrite C. cbn [then_].
  f_equal. unfold bit. rewrite !N.lor_0_r, N.land_lor_distr_r.
  destruct (N.land p (N.shiftl 1 a) =? 0) eqn:E1; destruct (N.land p (N.shiftl 1 b) =? 0) eqn:E2; cbn;
    destruct (N.lor (N.land p (N.shiftl 1 a)) (N.land p (N.shiftl 1 b)) =? 0) eqn:E3; cbn; try reflexivity;
    exfalso; rewrite ?N.eqb_eq, ?N.eqb_neq in *; rewrite N.lor_eq_0_iff in E3; tauto.
Qed.
