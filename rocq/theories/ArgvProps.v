(** Property theorems C16: the command-line arguments as input. *)
From Verif Require Import Prelude ArgvModel ArgvSpec ArgvProofs.
Open Scope N_scope.

(** For every argument vector, with or without arguments, empty or not: the positions are reached
    from the begin by increments; each one before the end shows the corresponding character of the
    arguments separated by single NULs; incrementing and decrementing are inverse; the last
    position is the end, and equals the sentinel; two positions compare equal exactly if
    they are the same. *)
Theorem C16_iteration : forall a, c_strings a ->
  forall k, (k <= length (argv_text a))%nat -> exists x, at_pos a k x /\
    ((k < length (argv_text a))%nat ->
       it_deref a x = nth_error (argv_text a) k /\ it_is_end a x = Some false /\
       exists y, at_pos a (S k) y /\ it_increment a x = Some y /\ it_decrement a y = Some x) /\
    (k = length (argv_text a) -> argv_end a = Some x /\ it_is_end a x = Some true) /\
    (forall j y, (j <= length (argv_text a))%nat -> at_pos a j y -> (it_equal y x = true <-> j = k)).
Proof. exact argv_ok. Qed.
Print Assumptions C16_iteration.

(** The reader shows the text and then end of input. *)
Theorem C16_reader : forall a e, c_strings a -> argv_end a = Some e ->
  forall k x, (k <= length (argv_text a))%nat -> at_pos a k x ->
    rr_peek a e x = Some (nth_error (argv_text a) k) /\
    ((k < length (argv_text a))%nat -> exists y, rr_bump a e x = Some y /\ at_pos a (S k) y).
Proof. exact reader_ok. Qed.
Print Assumptions C16_reader.

(** [dsl::argv_separator] matches exactly between two arguments. *)
Theorem C16_separator : forall a e, c_strings a -> argv_end a = Some e ->
  forall k x, (k <= length (argv_text a))%nat -> at_pos a k x ->
    exists b y, argv_separator a e x = Some (b, y) /\
      (b = true <-> exists l1 l2, l1 <> [] /\ l2 <> [] /\ tl a = l1 ++ l2 /\ k = length (joined l1)) /\
      (b = true -> at_pos a (S k) y).
Proof. exact separator_ok. Qed.
Print Assumptions C16_separator.

(** Sizes, clamped advancing, and the smaller and larger of two positions, computed by iterating. *)
Theorem C16_ranges : forall a, c_strings a -> forall i j k x y z m fuel,
  (i <= j)%nat -> (i <= k)%nat -> (j <= length (argv_text a))%nat -> (k <= length (argv_text a))%nat -> (length (argv_text a) <= fuel)%nat ->
  at_pos a i x -> at_pos a j y -> at_pos a k z ->
  range_size a fuel x y = Some (j - i)%nat /\
  (exists w, next_clamped a x m y = Some w /\ at_pos a (Nat.min (i + m) j) w) /\
  (exists w, min_range_end a fuel x y z = Some w /\ at_pos a (Nat.min j k) w) /\
  (exists w, max_range_end a fuel x y z = Some w /\ at_pos a (Nat.max j k) w).
Proof. exact ranges_ok. Qed.
Print Assumptions C16_ranges.

Example C16_example :
  let a := [[112]; [97; 98]; []; [99]] in
  c_strings a /\ argv_text a = [97; 98; 0; 0; 99] /\
  at_pos a 3 (It 2 (Some 0%nat)) /\ argv_end a = Some (It 3 (Some 1%nat)) /\
  argv_separator a (It 3 (Some 1%nat)) (It 2 (Some 0%nat)) = Some (true, It 3 (Some 0%nat)) /\
  argv_text [[112]] = [] /\ argv_end [[112]] = Some (argv_begin [[112]]).
Proof.
  cbn zeta. split; [repeat constructor; cbn; intuition discriminate|]. repeat split; vm_compute; reflexivity.
Qed.
