(** Which reads a buffer reader may issue, and why they stay inside. *)
From Verif Require Import Prelude SwarModel SwarLanes SwarScan BufferModel BufferProofs.
Open Scope N_scope.

(** Positions of a reader that starts at the beginning and is bumped by one unit
    past a unit that is not the end marker, or by one word past a word without
    an end marker. *)
Inductive reach (w eofc : N) (mem : list N) : nat -> Prop :=
  | reach_start : reach w eofc mem 0
  | reach_bump p c : reach w eofc mem p -> nth_error mem p = Some c -> c <> eofc ->
      reach w eofc mem (p + 1)
  | reach_word p : reach w eofc mem p ->
      (forall i, (i < swar_length w)%nat -> exists c, nth_error mem (p + i) = Some c /\ c <> eofc) ->
      reach w eofc mem (p + swar_length w).

Definition buffer_mem (eofc : N) (contents : list N) : list N :=
  contents ++ repeat eofc (alloc_size true (length contents) - length contents).

Lemma buffer_pad n : (9 <= alloc_size true n - n)%nat.
Proof. unfold alloc_size. pose proof (round_size_ge (n + 1)). lia. Qed.

Lemma buffer_mem_ok w contents : width_ok w -> lanes w contents -> ~ In (2 ^ w - 1) contents ->
  mem_ok w (2 ^ w - 1) (alloc_size true (length contents) - length contents) contents.
Proof.
  intros Hw Hl Hn. repeat split; auto. pose proof (buffer_pad (length contents)).
  destruct Hw as [->|[->| ->]]; unfold swar_length; lia.
Qed.

Lemma buffer_mem_length eofc contents :
  length (buffer_mem eofc contents) = alloc_size true (length contents).
Proof.
  unfold buffer_mem. rewrite app_length, repeat_length. pose proof (buffer_pad (length contents)). lia.
Qed.

Lemma buffer_eof eofc contents p :
  (length contents <= p < alloc_size true (length contents))%nat ->
  nth_error (buffer_mem eofc contents) p = Some eofc.
Proof.
  intros H. unfold buffer_mem. rewrite nth_error_app2 by lia. apply nth_error_repeat. lia.
Qed.

Lemma reach_bound w eofc contents p : width_ok w ->
  reach w eofc (buffer_mem eofc contents) p -> (p <= length contents)%nat.
Proof.
  intros Hw H. induction H as [|p c Hr IH Hc Hne|p Hr IH Hall]; [lia| |].
  - destruct (Nat.eq_dec p (length contents)) as [->|]; [|lia].
    rewrite buffer_eof in Hc; [congruence|]. pose proof (buffer_pad (length contents)). lia.
  - destruct (Nat.le_gt_cases (p + swar_length w) (length contents)) as [?|Hlt]; [assumption|].
    exfalso. destruct (Hall (length contents - p)%nat ltac:(lia)) as (c & Hc & Hne).
    replace (p + (length contents - p))%nat with (length contents) in Hc by lia.
    rewrite buffer_eof in Hc; [congruence|]. pose proof (buffer_pad (length contents)). lia.
Qed.

Lemma reads_inside w eofc contents p : width_ok w ->
  reach w eofc (buffer_mem eofc contents) p ->
  (p + Nat.max 1 (swar_length w) <= alloc_size true (length contents))%nat /\
  br_peek (buffer_mem eofc contents) p <> None /\
  peek_swar w (buffer_mem eofc contents) p <> None.
Proof.
  intros Hw H. apply reach_bound in H; [|exact Hw]. pose proof (buffer_pad (length contents)) as Hp.
  assert (HL : (1 <= swar_length w <= 8)%nat).
  { destruct Hw as [->|[->| ->]]; vm_compute; lia. }
  split; [lia|]. split.
  - unfold br_peek. intros E. apply nth_error_None in E. rewrite buffer_mem_length in E. lia.
  - unfold peek_swar. destruct (Nat.leb_spec (p + swar_length w) (length (buffer_mem eofc contents))) as [?|Hlt].
    + discriminate.
    + rewrite buffer_mem_length in Hlt. lia.
Qed.
