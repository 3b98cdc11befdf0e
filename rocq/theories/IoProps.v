(** Property theorems C13-C15 and C69: incremental reading, files, the shell, memory. *)
From Verif Require Import Prelude BufferModel BufferSpec IoModel IoSpec IoProofs IoShell.
Open Scope N_scope.

(** ** C13 *)

(** Whatever was appended to a buffer of bytes since the last clear is its contents, in order,
    however the appends were split and whenever it grew; and appending what fits into the write
    area is always possible. *)
Theorem C13_builder : forall ops b, brun (bb_new 1) ops = Some b ->
  bb_read_bytes b = map Some (appended ops []) /\ length (appended ops []) = bb_read b /\
  forall bytes, (length bytes <= bb_write b)%nat -> exists b', brun (bb_new 1) (ops ++ [BAppend bytes]) = Some b'.
Proof.
  intros ops b H. destruct (builder_contents ops b H) as (H1 & H2). split; [exact H1|]. split; [exact H2|].
  intros bytes Hl. exact (append_defined ops b bytes H Hl).
Qed.
Print Assumptions C13_builder.

(** A position denotes the same character after any further appending and growing. *)
Theorem C13_iterators : forall ops ops' b b' i c,
  brun (bb_new 1) ops = Some b -> brun b ops' = Some b' -> ~ In BClear ops' ->
  bb_deref b i = Some c -> bb_deref b' i = Some c.
Proof. exact iterators_stable. Qed.
Print Assumptions C13_iterators.

Example C13_example : exists b, brun (bb_new 1) [BAppend [1; 2]; BGrow; BAppend [3]; BGrow; BClear; BAppend [4; 5]; BGrow] = Some b /\
  bb_read_bytes b = [Some 4; Some 5] /\ bb_deref b 1 = Some [Some 5].
Proof. eexists. split; [vm_compute; reflexivity|]. split; vm_compute; reflexivity. Qed.

(** Reading standard input delivers the concatenation of the chunks the operating system hands
    out, or an error if the stream reports one. *)
Theorem C13_stdin : forall s, exists log, read_stdin s =
  if sm_error s then Stdin Fos_error None log else Stdin Fsuccess (Some (map Some (concat (sm_chunks s)))) log.
Proof. intros s. destruct (read_stdin_ok s) as (log & H & _). eauto. Qed.
Print Assumptions C13_stdin.

Example C13_stdin_example : exists log,
  read_stdin (Stream [[1; 2]; []; repeat 7 (2 ^ 11)%nat; [3]] false) =
  Stdin Fsuccess (Some (map Some ([1; 2] ++ repeat 7 (2 ^ 11)%nat ++ [3]))) log /\ log <> [].
Proof. eexists. split; [vm_compute; reflexivity|discriminate]. Qed.

(** For wider units the claim is false: growing copies as many bytes as there are units. *)
Theorem C13_wide_refuted : exists ops b, Forall (whole 2) ops /\ brun (bb_new 2) ops = Some b /\
  bb_read_bytes b <> map Some (appended ops []) /\ In None (bb_read_bytes b).
Proof.
  exists [BAppend [1; 2; 3; 4]; BGrow]. eexists. split.
  - constructor; [exists 2%nat; reflexivity|]. constructor; [exact I|constructor].
  - split; [vm_compute; reflexivity|]. split; [vm_compute; discriminate|vm_compute; tauto].
Qed.
Print Assumptions C13_wide_refuted.

(** Missing from the full claim for wider units: histories in which the buffer grows. *)
Theorem C13_wide_partial : forall w ops b, (0 < w)%nat -> Forall (fun o => whole w o /\ o <> BGrow) ops ->
  brun (bb_new w) ops = Some b -> bb_read_bytes b = map Some (appended ops []).
Proof.
  intros w ops b Hw Hf H. assert (H0 : bb_ok (bb_new w) []) by (apply ok_new; lia).
  now destruct (run_nogrow ops (bb_new w) b [] Hf H0 H) as ((_ & _ & G & _) & _).
Qed.
Print Assumptions C13_wide_partial.

Example C13_wide_example : exists b, brun (bb_new 2) [BAppend [1; 2; 3; 4]; BClear; BAppend [5; 6]; BAppend [7; 8]] = Some b /\
  bb_read_bytes b = map Some [5; 6; 7; 8].
Proof. eexists. split; vm_compute; reflexivity. Qed.

(** ** C14 *)

(** Success, with exactly the bytes [bytes] passed on once, if and only if every system call made
    succeeds and delivers them. *)
Theorem C14_success : forall o bytes,
  fst (read_file o) = Fsuccess /\ passed (snd (read_file o)) = [bytes] <-> all_calls_succeed o bytes.
Proof. exact file_success. Qed.
Print Assumptions C14_success.

(** The error says why the file could not be opened, or that a later call failed; nothing is passed
    on in case of an error. *)
Theorem C14_errors : forall o,
  (fst (read_file o) = Fsuccess <-> exists bytes, passed (snd (read_file o)) = [bytes]) /\
  (fst (read_file o) <> Fsuccess <-> passed (snd (read_file o)) = []) /\
  (forall e, os_open o = Some e -> fst (read_file o) =
     match e with ENOENT | ENOTDIR | ELOOP => Fnot_found | EACCES | EPERM => Fpermission | EOther => Fos_error end) /\
  (os_open o = None -> fst (read_file o) = Fsuccess \/ fst (read_file o) = Fos_error).
Proof. exact file_errors. Qed.
Print Assumptions C14_errors.

(** The descriptor is closed exactly once, as the last call, if it was opened and never
    otherwise; a mapping is unmapped exactly once; no read exceeds the memory it writes to. *)
Theorem C14_resources : forall o,
  (count is_close (snd (read_file o)) = match os_open o with None => 1 | Some _ => 0 end)%nat /\
  (os_open o = None -> exists l, snd (read_file o) = l ++ [KClose]) /\
  mapping_released o (snd (read_file o)) /\
  (forall cap n, In (KRead cap n) (snd (read_file o)) -> (n <= cap)%nat).
Proof. exact file_resources. Qed.
Print Assumptions C14_resources.

(** The same for the variant without mappings. *)
Theorem C14_portable : forall o,
  (forall bytes, fst (read_file_portable o) = Fsuccess /\ passed (snd (read_file_portable o)) = [bytes] <->
     all_portable_calls_succeed o bytes) /\
  (fst (read_file_portable o) <> Fsuccess <-> passed (snd (read_file_portable o)) = []) /\
  (forall e, os_open o = Some e -> fst (read_file_portable o) =
     match e with ENOENT | ENOTDIR | ELOOP => Fnot_found | EACCES | EPERM => Fpermission | EOther => Fos_error end) /\
  (os_open o = None -> fst (read_file_portable o) = Fsuccess \/ fst (read_file_portable o) = Fos_error) /\
  (count is_close (snd (read_file_portable o)) = match os_open o with None => 1 | Some _ => 0 end)%nat.
Proof. intros o. split; [exact (portable_success o)|exact (portable_errors o)]. Qed.
Print Assumptions C14_portable.

(** A readable file of bytes, of any size, gives the buffer of its bytes with both variants. *)
Theorem C14_contents : forall content o units, good_file content o -> make_buffer_bom8 Little content = Some units ->
  read_file_result (make_buffer_bom8 Little) (read_file o) = FileBuffer units /\
  read_file_result (make_buffer_bom8 Little) (read_file_portable o) = FileBuffer units.
Proof. intros content o units. exact (file_contents content o (make_buffer_bom8 Little) units). Qed.
Print Assumptions C14_contents.

Example C14_example :
  good_file [0xEF; 0xBB; 0xBF; 0x41] (sample_os [0xEF; 0xBB; 0xBF; 0x41]) /\
  read_file_result (make_buffer_bom8 Little) (read_file (sample_os [0xEF; 0xBB; 0xBF; 0x41])) = FileBuffer [0x41] /\
  existsb (fun c => match c with KMmap _ => true | _ => false end) (snd (read_file (sample_os (repeat 7 (2 ^ 16)%nat)))) = true.
Proof. split; [repeat split|]. split; vm_compute; reflexivity. Qed.

(** "exactly the bytes of the file" is false for units of several bytes: a file whose size is not a
    multiple of the unit violates a precondition of [make_buffer_from_raw]. *)
Theorem C14_unit_size_refuted : exists content o, good_file content o /\
  read_file_result (make_buffer_bom16 Little) (read_file o) = FileCrash.
Proof. exists [0x41], (sample_os [0x41]). split; [repeat split|vm_compute; reflexivity]. Qed.
Print Assumptions C14_unit_size_refuted.

(** ** C15 *)

(** For every text of complete lines (with [fgets]: without NUL and with lines of at most 127
    characters) and every way of looking, going on and going back: at each position the
    character typed is seen, and, if the prompt knows that nothing is left, end of input behind
    the last.  Missing from the full claim: text whose last line is not complete, no text at all, end of
    input with a prompt that learns it only by reading, long lines with [fgets], and NUL. *)
Theorem C15_partial : forall text eager fgets s0,
  text <> [] -> complete text -> readable fgets text ->
  (exists ops, brun (bb_new 1) ops = Some (sh_buf s0)) -> sh_prompt s0 = Prompt text false eager fgets ->
  (exists b p, prompt_for_input s0 = App true b p) /\
  forall s i, session text s0 s i ->
    (i <= length text)%nat /\
    ((i < length text)%nat -> exists c s', nth_error text i = Some c /\ shell_peek_at s i = PkChar c s') /\
    (i = length text -> eager = true -> exists s', shell_peek_at s i = PkEof s').
Proof. exact session_peek. Qed.
Print Assumptions C15_partial.

Ltac walk n := match n with
  | O => apply se_start; vm_compute; reflexivity
  | S ?m => eapply se_bump; [walk m|cbn; lia|vm_compute; reflexivity]
  end.

Example C15_example :
  exists s, session [97; 10; 98; 10] (new_shell [97; 10; 98; 10] true true) s 3 /\
    exists s', shell_peek_at s 3 = PkChar 10 s'.
Proof.
  eexists. split.
  - walk 3%nat.
  - eexists. vm_compute. reflexivity.
Qed.

(** End of input: with [fgets], behind the last line the user sees a NUL that was not typed; with
    a prompt as documented, memory that was never written. *)
Theorem C15_end_refuted :
  (exists s s', session [97; 10] (new_shell [97; 10] false true) s 2 /\ shell_peek_at s 2 = PkChar 0 s') /\
  (exists s, session [97; 10] (new_shell [97; 10] false false) s 2 /\ shell_peek_at s 2 = PkUb).
Proof.
  split.
  - eexists. eexists. split.
    + walk 2%nat.
    + vm_compute. reflexivity.
  - eexists. split.
    + walk 2%nat.
    + vm_compute. reflexivity.
Qed.
Print Assumptions C15_end_refuted.

(** Nothing typed: the character in front of the buffer is read. *)
Theorem C15_no_input_refuted : forall eager fgets, prompt_for_input (new_shell [] eager fgets) = AppUb.
Proof. intros [] []; vm_compute; reflexivity. Qed.
Print Assumptions C15_no_input_refuted.

(** A last line without newline: the first look at its first character reports end of input, the
    second one the character. *)
Theorem C15_last_line_refuted : forall fgets, exists s s' s'', session [97; 10; 98] (new_shell [97; 10; 98] false fgets) s 2 /\
  shell_peek_at s 2 = PkEof s' /\ shell_peek_at s' 2 = PkChar 98 s''.
Proof.
  intros []; eexists; eexists; eexists.
  - split; [walk 2%nat|]. split; vm_compute; reflexivity.
  - split; [walk 2%nat|]. split; vm_compute; reflexivity.
Qed.
Print Assumptions C15_last_line_refuted.

(** With [fgets], a line as long as the write area, or a NUL, fails an assertion. *)
Theorem C15_fgets_refuted :
  (exists line, ~ In 0 line /\ prompt_for_input (new_shell (line ++ [10]) false true) = AppAssert) /\
  prompt_for_input (new_shell [97; 0; 98; 10] false true) = AppAssert.
Proof.
  split; [|vm_compute; reflexivity]. exists (repeat 97 (2 ^ 10)%nat). split; [|vm_compute; reflexivity].
  intros H. apply repeat_spec in H. discriminate.
Qed.
Print Assumptions C15_fgets_refuted.

(** ** C69 *)

(** For every history of use of a buffer with units of any width: after its destruction every
    block allocated has been freed exactly once, and before that at most the current one is
    allocated. *)
Theorem C69_builder : forall w ops b, (0 < w)%nat -> brun (bb_new w) ops = Some b ->
  replay [] (rev (bb_destroy b)) = Some [] /\
  replay [] (rev (bb_log b)) = Some (match bb_block b with Some k => [k] | None => [] end).
Proof. exact builder_memory. Qed.
Print Assumptions C69_builder.

(** The same for reading standard input, also when it fails. *)
Theorem C69_stdin : forall s, exists e passed log, read_stdin s = Stdin e passed log /\ replay [] (rev log) = Some [].
Proof. intros s. destruct (read_stdin_ok s) as (log & H & Hl). rewrite H. destruct (sm_error s); eauto 6. Qed.
Print Assumptions C69_stdin.

Example C69_example : exists b, brun (bb_new 1) [BAppend [1; 2]; BGrow; BGrow; BClear] = Some b /\ length (bb_destroy b) = 4%nat.
Proof. eexists. split; vm_compute; reflexivity. Qed.
