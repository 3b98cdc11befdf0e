(** Specification vocabulary for incremental reading, files and the shell. *)
From Verif Require Import Prelude BufferModel IoModel.
Open Scope N_scope.

(** ** Histories of a builder *)

(** The user of a builder fills (part of) the write area and commits it, grows, or clears. *)
Inductive bop := BAppend (bytes : list N) | BGrow | BClear.
Definition bstep (b : builder) (o : bop) : option builder :=
  match o with
  | BAppend bytes =>
    match bb_fill b bytes with
    | Some b1 => bb_commit b1 (length bytes / bb_width b)
    | None => None
    end
  | BGrow => Some (bb_grow b)
  | BClear => Some (bb_clear b)
  end.
Fixpoint brun (b : builder) (ops : list bop) : option builder :=
  match ops with
  | [] => Some b
  | o :: ops' => match bstep b o with Some b' => brun b' ops' | None => None end
  end.
(** What was appended since the last clear. *)
Fixpoint appended (ops : list bop) (before : list N) : list N :=
  match ops with
  | [] => before
  | BAppend bytes :: ops' => appended ops' (before ++ bytes)
  | BGrow :: ops' => appended ops' before
  | BClear :: ops' => appended ops' []
  end.
(** Whole units are appended. *)
Definition whole (width : nat) (o : bop) : Prop :=
  match o with BAppend bytes => exists k, length bytes = (k * width)%nat | _ => True end.

(** Replaying the memory log, oldest event first: the blocks that are still allocated, or [None]
    if a block is freed that is not allocated, or allocated twice. *)
Fixpoint replay (live : list nat) (log : list mem_event) : option (list nat) :=
  match log with
  | [] => Some live
  | ANew k _ :: log' => if existsb (Nat.eqb k) live then None else replay (k :: live) log'
  | ADelete k :: log' =>
    if existsb (Nat.eqb k) live then replay (filter (fun j => negb (j =? k)%nat) live) log' else None
  end.

(** ** Files *)

(** A file with the given bytes that can be opened and read. *)
Definition good_file (content : list N) (o : os) : Prop :=
  os_open o = None /\ os_seek_end o = Some (length content) /\ os_seek_set o = true /\
  os_read o (length content) = Some content /\ os_mmap o (length content) = Some content.

(** Every call that the given way of reading needs succeeds, and [bytes] is what is delivered. *)
Definition all_calls_succeed (o : os) (bytes : list N) : Prop :=
  os_open o = None /\ exists size, os_seek_end o = Some size /\
  (((size <= 2 ^ 15)%nat /\ os_seek_set o = true /\ os_read o size = Some bytes /\ length bytes = size) \/
   ((2 ^ 15 < size)%nat /\ os_mmap o size = Some bytes)).
Definition all_portable_calls_succeed (o : os) (bytes : list N) : Prop :=
  os_open o = None /\ exists size, os_seek_end o = Some size /\
  os_seek_set o = true /\ os_read o size = Some bytes /\ length bytes = size.

(** For examples: a system with one file. *)
Definition sample_os (content : list N) : os :=
  Os None (Some (length content)) true (fun n => Some (firstn n content)) (fun n => Some (firstn n content)).

Definition is_close (c : call) : bool := match c with KClose => true | _ => false end.
Definition count (f : call -> bool) (l : list call) : nat := length (filter f l).

(** Mappings are released: after each mapping that succeeds, the bytes are passed on and then the
    same size is unmapped, once. *)
Definition mapping_released (o : os) (calls : list call) : Prop :=
  forall n, In (KMmap n) calls ->
    match os_mmap o n with
    | None => count (fun c => match c with KMunmap _ => true | _ => false end) calls = 0%nat
    | Some bytes => exists pre, calls = pre ++ [KMmap n; KPass bytes; KMunmap n; KClose] /\
        count (fun c => match c with KMunmap _ => true | _ => false end) pre = 0%nat
    end.

(** ** The shell *)

(** Every line ends with a newline. *)
Definition complete (text : list N) : Prop := text = [] \/ exists t, text = t ++ [NL].

(** What a prompt can read: with [fgets], no NUL, and lines of at most 127 characters. *)
Definition readable (fgets : bool) (text : list N) : Prop :=
  fgets = true ->
  ~ In 0 text /\
  forall pre mid post, text = pre ++ mid ++ post -> length mid = 127%nat -> In NL mid.

(** Use of an input while it stays within the typed text: look at the current character, go on
    behind it, return to an earlier position. *)
Inductive session (text : list N) : shell -> shell -> nat -> Prop :=
| se_start s0 b p : prompt_for_input s0 = App true b p -> session text s0 (Shell b p) 0
| se_peek s0 s i c s' : session text s0 s i -> (i < length text)%nat -> shell_peek_at s i = PkChar c s' ->
    session text s0 s' i
| se_bump s0 s i c s' : session text s0 s i -> (i < length text)%nat -> shell_peek_at s i = PkChar c s' ->
    session text s0 s' (S i)
| se_reset s0 s i j : session text s0 s i -> (j <= i)%nat -> session text s0 s j.

(** A shell that was not used yet. *)
Definition new_shell (text : list N) (eager fgets : bool) : shell :=
  Shell (bb_new 1) (Prompt text false eager fgets).
