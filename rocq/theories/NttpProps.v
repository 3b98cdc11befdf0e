(** Strings given to the macros of the library (C85). *)
From Verif Require Import Prelude NttpModel NttpProofs.
Close Scope N_scope.

(** LEXY_LIT("...") and the like stand for exactly the characters between the quotes, zeros
    included, with each of the three ways to pass a string to a template.  [n] is the number of
    iterations the compiler allows, [d] how deep it instantiates templates. *)
Theorem C85_same : forall s n d, (N.of_nat (length s) < 2 ^ 32)%N -> length s <= n -> length s <= 2 ^ d ->
  nttp_class n (fun k => Some (seq 0 k)) (array s) = Some s /\
  nttp_class n (make_index d) (array s) = Some s /\
  nttp_literal (array s) = Some s /\
  (length s <= 32 -> nttp_macro (array s) = Some s).
Proof.
  intros s n d H1 H2 H3. split; [now apply class_ok|]. split; [apply class_ok; auto; now apply make_index_ok|].
  split; [apply literal_ok|]. intros H. rewrite macro_ok. now rewrite (proj2 (Nat.leb_le _ _) H).
Qed.
Print Assumptions C85_same.
Example C85_same_case :
  nttp_class 9 (make_index 3) (array [97; 0; 98; 200; 97]%N) = Some [97; 0; 98; 200; 97]%N /\
  nttp_macro (array [97; 0; 98; 200; 97]%N) = Some [97; 0; 98; 200; 97]%N /\ nttp_macro (array []) = Some [] /\
  char_literal 97 = [97%N].
Proof. repeat split; vm_compute; reflexivity. Qed.

(** No string is cut: what cannot be passed is rejected. *)
Theorem C85_never_other : forall s t n d,
  nttp_class n (fun k => Some (seq 0 k)) (array s) = Some t \/ nttp_class n (make_index d) (array s) = Some t \/
  nttp_literal (array s) = Some t \/ nttp_macro (array s) = Some t -> t = s.
Proof.
  intros s t n d [H|[H|[H|H]]].
  - destruct (N.lt_ge_cases (N.of_nat (length s)) (2 ^ 32)) as [Hs|Hs].
    + destruct (Nat.le_gt_cases (length s) n) as [Hn|Hn]; [rewrite class_ok in H; auto; congruence|].
      exfalso. revert H. unfold nttp_class, string_literal. rewrite array_length. rewrite fill_short by lia. discriminate.
    + exfalso. revert H. unfold nttp_class, string_literal. rewrite array_length. rewrite fill_forever by (try exact Hs; reflexivity). discriminate.
  - destruct (N.lt_ge_cases (N.of_nat (length s)) (2 ^ 32)) as [Hs|Hs].
    + destruct (Nat.le_gt_cases (length s) n) as [Hn|Hn].
      * destruct (Nat.le_gt_cases (length s) (2 ^ d)) as [Hd|Hd]; [rewrite class_ok in H; auto using make_index_ok; congruence|].
        exfalso. revert H. unfold nttp_class, string_literal. rewrite array_length.
        pose proof (fill_ok s [] n Hs Hn) as HF. cbn [app length] in HF. change (N.of_nat 0) with 0%N in HF. rewrite HF. unfold to_type_string.
        rewrite make_index_deep by exact Hd. discriminate.
      * exfalso. revert H. unfold nttp_class, string_literal. rewrite array_length. rewrite fill_short by lia. discriminate.
    + exfalso. revert H. unfold nttp_class, string_literal. rewrite array_length. rewrite fill_forever by (try exact Hs; reflexivity). discriminate.
  - rewrite literal_ok in H. congruence.
  - rewrite macro_ok in H. destruct (length s <=? 32); congruence.
Qed.
Print Assumptions C85_never_other.
(** 33 characters are too many for the macros only. *)
Example C85_never_other_case : nttp_macro (array (repeat 97%N 33)) = None /\ nttp_literal (array (repeat 97%N 33)) = Some (repeat 97%N 33).
Proof. split; vm_compute; reflexivity. Qed.

(** The indices made by halving are 0, 1, ..., n - 1 in order; templates are instantiated as deep
    as the logarithm of [n] and no deeper. *)
Theorem C85_indices : forall d n, make_index d n = if n <=? 2 ^ d then Some (seq 0 n) else None.
Proof.
  intros d n. destruct (Nat.leb_spec n (2 ^ d)); [now apply make_index_ok|now apply make_index_deep].
Qed.
Print Assumptions C85_indices.
Example C85_indices_case : make_index 3 7 = Some [0; 1; 2; 3; 4; 5; 6] /\ make_index 2 7 = None.
Proof. split; vm_compute; reflexivity. Qed.

(** The array given to others has one more element, a zero behind the converted characters. *)
Theorem C85_terminated : forall f s i, length (c_str f s) = S (length s) /\ nth_error (c_str f s) (length s) = Some 0%N /\
  (i < length s -> nth_error (c_str f s) i = option_map f (nth_error s i)).
Proof.
  intros f s i. unfold c_str. rewrite app_length, map_length. split; [cbn; lia|]. split.
  - rewrite nth_error_app2, map_length, Nat.sub_diag by (rewrite map_length; lia). reflexivity.
  - intros H. rewrite nth_error_app1 by (rewrite map_length; exact H). apply nth_error_map.
Qed.
Print Assumptions C85_terminated.
Example C85_terminated_case : c_str (fun c => c) [97; 98]%N = [97; 98; 0]%N.
Proof. reflexivity. Qed.
