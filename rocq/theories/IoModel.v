(** Model of incremental reading: _detail/buffer_builder.hpp, src/input/file.cpp,
    input/file.hpp and lexy_ext/shell.hpp. *)
From Verif Require Import Prelude BufferModel.
Open Scope N_scope.

(** ** buffer_builder *)

(** A byte of memory: [None] is indeterminate (never written). *)
Definition cell := option N.

(** buffer_builder.hpp:15-156: [bb_width] is [sizeof(T)], [bb_data] the bytes of the whole area
    [_data] points to, [bb_read] and [bb_write] are [_read_size] and [_write_size] (in units),
    [bb_block] is the number of the heap block, [None] for the stack buffer; [bb_log] lists the
    calls of [operator new] and [operator delete], newest first, and [bb_next] numbers blocks. *)
Inductive mem_event := ANew (block bytes : nat) | ADelete (block : nat).
Record builder := Builder {
  bb_width : nat;
  bb_data : list cell;
  bb_read : nat;
  bb_write : nat;
  bb_block : option nat;
  bb_next : nat;
  bb_log : list mem_event }.

(** buffer_builder.hpp:22-26 [stack_buffer_size]: pointers and sizes have eight bytes. *)
Definition stack_buffer_size (width : nat) : nat := (1000 / width)%nat.

(** buffer_builder.hpp:29-32: the constructor; the stack buffer is not initialised. *)
Definition bb_new (width : nat) : builder :=
  Builder width (repeat None (stack_buffer_size width * width)) 0 (stack_buffer_size width) None 0 [].

(** buffer_builder.hpp:34-39: the destructor. *)
Definition bb_destroy (b : builder) : list mem_event :=
  match bb_block b with
  | Some k => ADelete k :: bb_log b
  | None => bb_log b
  end.

(** buffer_builder.hpp:44-48 [capacity]. *)
Definition bb_capacity (b : builder) : nat := (bb_read b + bb_write b)%nat.

(** buffer_builder.hpp:50-58 [read_data], [read_size]: the bytes of the read area. *)
Definition bb_read_bytes (b : builder) : list cell := firstn (bb_read b * bb_width b) (bb_data b).

(** buffer_builder.hpp:70-75 [clear]. *)
Definition bb_clear (b : builder) : builder :=
  Builder (bb_width b) (bb_data b) 0 (bb_write b + bb_read b) (bb_block b) (bb_next b) (bb_log b).

(** The caller writes bytes to the start of the write area ([write_data], buffer_builder.hpp:60-64).
    [None]: out of the write area. *)
Definition bb_fill (b : builder) (bytes : list N) : option builder :=
  if (length bytes <=? bb_write b * bb_width b)%nat then
    let at_ := (bb_read b * bb_width b)%nat in
    Some (Builder (bb_width b)
      (firstn at_ (bb_data b) ++ map Some bytes ++ skipn (at_ + length bytes) (bb_data b))
      (bb_read b) (bb_write b) (bb_block b) (bb_next b) (bb_log b))
  else None.

(** buffer_builder.hpp:77-83 [commit]; [None]: precondition violated. *)
Definition bb_commit (b : builder) (n : nat) : option builder :=
  if (n <=? bb_write b)%nat then
    Some (Builder (bb_width b) (bb_data b) (bb_read b + n) (bb_write b - n) (bb_block b) (bb_next b) (bb_log b))
  else None.

(** buffer_builder.hpp:85-105 [grow].  Line 94 copies [_read_size] bytes, not units. *)
Definition bb_grow (b : builder) : builder :=
  let cur_cap := bb_capacity b in
  let new_cap := (2 * cur_cap)%nat in
  let copied := firstn (bb_read b) (bb_data b) in
  let memory := copied ++ repeat None (new_cap * bb_width b - length copied) in
  let log := ANew (bb_next b) (new_cap * bb_width b) :: bb_log b in
  let log := match bb_block b with Some k => ADelete k :: log | None => log end in
  Builder (bb_width b) memory (bb_read b) (new_cap - bb_read b) (Some (bb_next b)) (S (bb_next b)) log.

(** buffer_builder.hpp:118-122 [stable_iterator::deref]: the bytes of a unit of the read area;
    [None]: precondition violated. *)
Definition bb_deref (b : builder) (idx : nat) : option (list cell) :=
  if (idx <? bb_read b)%nat then Some (firstn (bb_width b) (skipn (idx * bb_width b) (bb_data b))) else None.

(** ** stdin *)

(** A C stream: the operating system delivers chunks of bytes, then the end of the file or an
    error.  [fread] collects chunks until it has [n] bytes or the stream ends. *)
Record stream := Stream { sm_chunks : list (list N); sm_error : bool }.
Fixpoint fread (n : nat) (chunks : list (list N)) : list N * list (list N) :=
  match chunks with
  | [] => ([], [])
  | c :: chunks' =>
    if (length c <=? n)%nat then
      let '(l, r) := fread (n - length c) chunks' in (c ++ l, r)
    else (firstn n c, skipn n c :: chunks')
  end.

(** file.hpp:18-28 [file_error]. *)
Inductive file_error := Fsuccess | Fos_error | Fnot_found | Fpermission.

Inductive stdin_result :=
| StdinFuel
| StdinAssert                                    (** an assertion fails *)
| Stdin (e : file_error) (passed : option (list cell)) (log : list mem_event).

(** src/input/file.cpp:189-225 [read_stdin]: the loop.  [passed] is what the callback gets. *)
Fixpoint stdin_loop (fuel : nat) (b : builder) (s : stream) : stdin_result :=
  match fuel with
  | O => StdinFuel
  | S fuel' =>
    let buffer_size := bb_write b in
    if (buffer_size =? 0)%nat then StdinAssert
    else
      let '(bytes, chunks) := fread buffer_size (sm_chunks s) in
      match bb_fill b bytes with
      | None => StdinAssert
      | Some b1 =>
        match bb_commit b1 (length bytes) with
        | None => StdinAssert
        | Some b2 =>
          if (length bytes <? buffer_size)%nat then
            if sm_error s then Stdin Fos_error None (bb_destroy b2)
            else Stdin Fsuccess (Some (bb_read_bytes b2)) (bb_destroy b2)
          else stdin_loop fuel' (bb_grow b2) (Stream chunks (sm_error s))
        end
      end
  end.
Definition read_stdin (s : stream) : stdin_result :=
  stdin_loop (S (length (concat (sm_chunks s)))) (bb_new 1) s.

(** ** read_file *)

Inductive errno := ENOENT | ENOTDIR | ELOOP | EACCES | EPERM | EOther.

(** src/input/file.cpp:42-57 (and 138-153) [get_file_error]. *)
Definition get_file_error (e : errno) : file_error :=
  match e with
  | ENOENT | ENOTDIR | ELOOP => Fnot_found
  | EACCES | EPERM => Fpermission
  | EOther => Fos_error
  end.

(** The answers of the operating system to the calls of one [read_file]; each is made at most
    once.  [os_read n] is the bytes that [read] or [fread] delivers, [None] for failure. *)
Record os := Os {
  os_open : option errno;                (** None: opened *)
  os_seek_end : option nat;              (** None: failed *)
  os_seek_set : bool;                    (** whether the offset is 0 afterwards *)
  os_read : nat -> option (list N);
  os_mmap : nat -> option (list N) }.    (** None: MAP_FAILED *)

(** Calls made.  [KRead cap n]: [n] bytes are asked for, to a buffer of [cap] bytes;
    [KPass] is the callback. *)
Inductive call := KOpen | KSeekEnd | KSeekSet | KRead (cap n : nat) | KMmap (n : nat) | KPass (bytes : list N)
  | KMunmap (n : nat) | KClose.

(** src/input/file.cpp:60-61. *)
Definition small_file_size : nat := (2 ^ 12)%nat.
Definition medium_file_size : nat := (2 ^ 15)%nat.

(** src/input/file.cpp:64-109 [read_file] on Unix: error and calls in order. *)
Definition read_file (o : os) : file_error * list call :=
  match os_open o with
  | Some e => (get_file_error e, [KOpen])
  | None =>
    let closing (r : file_error * list call) := (fst r, KOpen :: snd r ++ [KClose]) in
    closing
    match os_seek_end o with
    | None => (Fos_error, [KSeekEnd])
    | Some size =>
      if (size <=? small_file_size)%nat then
        if negb (os_seek_set o) then (Fos_error, [KSeekEnd; KSeekSet])
        else match os_read o size with
        | Some bytes =>
          if (length bytes =? size)%nat
          then (Fsuccess, [KSeekEnd; KSeekSet; KRead small_file_size size; KPass bytes])
          else (Fos_error, [KSeekEnd; KSeekSet; KRead small_file_size size])
        | None => (Fos_error, [KSeekEnd; KSeekSet; KRead small_file_size size])
        end
      else if (size <=? medium_file_size)%nat then
        if negb (os_seek_set o) then (Fos_error, [KSeekEnd; KSeekSet])
        else match os_read o size with
        | Some bytes =>
          if (length bytes =? size)%nat
          then (Fsuccess, [KSeekEnd; KSeekSet; KRead size size; KPass bytes])
          else (Fos_error, [KSeekEnd; KSeekSet; KRead size size])
        | None => (Fos_error, [KSeekEnd; KSeekSet; KRead size size])
        end
      else match os_mmap o size with
      | None => (Fos_error, [KSeekEnd; KMmap size])
      | Some bytes => (Fsuccess, [KSeekEnd; KMmap size; KPass bytes; KMunmap size])
      end
    end
  end.

(** src/input/file.cpp:157-185 [read_file] with C I/O ([fseek] and [ftell] together are
    [os_seek_end]). *)
Definition read_file_portable (o : os) : file_error * list call :=
  match os_open o with
  | Some e => (get_file_error e, [KOpen])
  | None =>
    let closing (r : file_error * list call) := (fst r, KOpen :: snd r ++ [KClose]) in
    closing
    match os_seek_end o with
    | None => (Fos_error, [KSeekEnd])
    | Some size =>
      if negb (os_seek_set o) then (Fos_error, [KSeekEnd; KSeekSet])
      else match os_read o size with
      | Some bytes =>
        if (length bytes =? size)%nat
        then (Fsuccess, [KSeekEnd; KSeekSet; KRead size size; KPass bytes])
        else (Fos_error, [KSeekEnd; KSeekSet; KRead size size])
      | None => (Fos_error, [KSeekEnd; KSeekSet; KRead size size])
      end
    end
  end.

(** file.hpp:92-126 [read_file<Encoding, Endian>]: the callback makes a buffer of the bytes;
    [make] is [make_buffer_from_raw].  The result is [read_file_result]: [FileCrash] if [make]'s
    precondition is violated. *)
Inductive file_result := FileError (e : file_error) | FileBuffer (units : list N) | FileCrash.
Fixpoint passed (calls : list call) : list (list N) :=
  match calls with
  | [] => []
  | KPass b :: r => b :: passed r
  | _ :: r => passed r
  end.
Definition read_file_result (make : list N -> option (list N)) (r : file_error * list call) : file_result :=
  match passed (snd r) with
  | bytes :: _ =>
    match make bytes with
    | None => FileCrash
    | Some units => match fst r with Fsuccess => FileBuffer units | e => FileError e end
    end
  | [] => match fst r with Fsuccess => FileBuffer [] | e => FileError e end
  end.

(** ** shell *)

(** A prompt: the characters that will be typed, whether the end was met, and its kind.
    shell.hpp:17-67 describes the interface; shell.hpp:71-143 [default_prompt] uses [fgets].
    [pr_eager]: [is_open] is false as soon as everything typed has been read; for stdin it is
    false only after a read met the end. *)
Record prompt := Prompt {
  pr_text : list N;
  pr_closed : bool;
  pr_eager : bool;
  pr_fgets : bool }.

Definition NL : N := 0x0A.

(** The characters of a line, up to and including the newline, at most [n]; the rest; and
    whether the end of the text was met before [n] characters or a newline. *)
Fixpoint take_line (n : nat) (text : list N) : list N * list N * bool :=
  match n, text with
  | O, _ => ([], text, false)
  | S _, [] => ([], [], true)
  | S n', c :: text' =>
    if c =? NL then ([c], text', false)
    else let '(l, r, e) := take_line n' text' in (c :: l, r, e)
  end.

(** shell.hpp:95-98 [default_prompt::is_open]. *)
Definition pr_is_open (p : prompt) : bool :=
  negb (pr_closed p) && negb (pr_eager p && match pr_text p with [] => true | _ => false end).

(** [strlen] of what [fgets] stored. *)
Fixpoint until_nul (l : list N) : nat :=
  match l with
  | [] => 0
  | c :: l' => if c =? 0 then 0 else S (until_nul l')
  end.

(** The read callback: bytes stored in the buffer, and the number returned.  As described in the
    interface (shell.hpp:35-45), or with [fgets] (shell.hpp:100-113), which stores at most
    [size - 1] characters and a NUL. *)
Definition pr_read (p : prompt) (size : nat) : list N * nat * prompt :=
  if pr_fgets p then
    let '(l, r, e) := take_line (size - 1) (pr_text p) in
    let p' := Prompt r (pr_closed p || e) (pr_eager p) (pr_fgets p) in
    match l with
    | [] => ([], 0%nat, p')
    | _ => (l ++ [0], until_nul l, p')
    end
  else
    let '(l, r, e) := take_line size (pr_text p) in
    (l, length l, Prompt r (pr_closed p || e) (pr_eager p) (pr_fgets p)).

(** shell.hpp:368-404 [append_next_line], for characters of one byte.  [AppUb]: [write_data()[-1]] is in front of the buffer or
    indeterminate; [AppAssert]: the assertion at l.393 fails (without assertions [false] is returned). *)
Inductive append := AppFuel | AppUb | AppAssert | App (appended : bool) (b : builder) (p : prompt).
Definition last_unit (b : builder) : option N :=
  match bb_read b with
  | O => None
  | S i => match nth_error (bb_data b) i with Some (Some c) => Some c | _ => None end
  end.
Fixpoint append_loop (fuel : nat) (b : builder) (p : prompt) : append :=
  match fuel with
  | O => AppFuel
  | S fuel' =>
    let buffer_size := bb_write b in
    let '(bytes, read, p') := pr_read p buffer_size in
    match bb_fill b bytes with
    | None => AppUb
    | Some b1 =>
      match bb_commit b1 read with
      | None => AppUb
      | Some b2 =>
        match last_unit b2 with
        | None => AppUb
        | Some c =>
          if c =? NL then App true b2 p'
          else if (read <? buffer_size)%nat then
            if pr_is_open p' then AppAssert else App false b2 p'
          else append_loop fuel' (bb_grow b2) p'
        end
      end
    end
  end.
Definition append_next_line (b : builder) (p : prompt) : append :=
  let b := if (bb_write b <? 128)%nat then bb_grow b else b in
  append_loop (S (length (pr_text p))) b p.

(** shell.hpp:147-246, 406-407: the shell is the buffer and the prompt; an input is an index.  Messages
    of the prompt are not modelled.  [None]: not a state (the outcome of the failed call). *)
Record shell := Shell { sh_buf : builder; sh_prompt : prompt }.

Inductive shell_peek := PkFuel | PkUb | PkAssert | PkEof (s : shell) | PkChar (c : N) (s : shell).

(** shell.hpp:214-220: construction of an input ([prompt_for_input], shell.hpp:248-254). *)
Definition prompt_for_input (s : shell) : append :=
  append_next_line (bb_clear (sh_buf s)) (sh_prompt s).

(** shell.hpp:186-192 [peek] and 222-240 [is_eof]. *)
Definition read_unit (s : shell) (idx : nat) : shell_peek :=
  match nth_error (bb_data (sh_buf s)) idx with
  | Some (Some c) => PkChar c s
  | _ => PkUb
  end.
Definition shell_peek_at (s : shell) (idx : nat) : shell_peek :=
  if negb (idx =? bb_read (sh_buf s))%nat then read_unit s idx
  else if negb (pr_is_open (sh_prompt s)) then PkEof s
  else match append_next_line (sh_buf s) (sh_prompt s) with
  | AppFuel => PkFuel
  | AppUb => PkUb
  | AppAssert => PkAssert
  | App true b p => read_unit (Shell b p) idx
  | App false b p => PkEof (Shell b p)
  end.
