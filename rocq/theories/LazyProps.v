(** C77: the holder of the value of a parse. *)
From Verif Require Import Prelude LazyModel LazySpec LazyProofs.
From Coq Require Import List Arith.
Import ListNotations.
Local Open Scope nat_scope.

(** Every history that only names existing holders runs without undefined behaviour: no object
    is constructed over a live one, and none is used or destroyed that is not alive.  At its
    end every holder reports a value exactly if it should have one, and dereferencing it
    gives the value last emplaced in or moved to it. *)
Theorem C77_optional : forall V fl (os : list (op V)),
  history fl (blank V) 0 os ->
  exists w, run fl (start V) os = Some w /\
    (forall i, has_value w i = true <-> exists c, notes fl (blank V) 0 os i = Some (Some c)) /\
    (forall i, value w i = notes fl (blank V) 0 os i).
Proof.
  intros V fl os H. destruct (holders_ok fl os H) as (w & E & Hb & Hv & _).
  exists w. split; [exact E|]. split; [|exact Hv]. intros i. rewrite Hb.
  destruct (notes fl (blank V) 0 os i) as [[c|]|]; split; intros G;
    try discriminate; eauto; destruct G; discriminate.
Qed.
Print Assumptions C77_optional.

(** Objects with a destructor: at every point of a history the objects constructed and not
    destroyed are those in the holders, and none is left once the holders are gone. *)
Theorem C77_lifetimes : forall V (os : list (op V)) w,
  history NonTrivial (blank V) 0 os -> run NonTrivial (start V) os = Some w ->
  made w = gone w + holding (notes NonTrivial (blank V) 0 os) (created os) /\
  ((forall i, notes NonTrivial (blank V) 0 os i = None) -> made w = gone w).
Proof.
  intros V os w H R. destruct (holders_ok NonTrivial os H) as (w' & E & _ & _ & Hm).
  rewrite R in E. injection E as <-. cbn in Hm. split; [exact Hm|].
  intros Hn. rewrite Hm, (no_holder_no_object _ (n := created os)); auto.
Qed.
Print Assumptions C77_lifetimes.

(** The value of a parse: the context is made, the callback throws once, then succeeds; the
    result takes the value, the context is destroyed; the result is assigned over an older
    one, emplaced again and everything is destroyed. *)
Definition a_parse : list (op nat) :=
  [New _; Throw _ 0; Emplace 0 7; MoveNew _ 0; Destroy _ 0; New _; Emplace 2 5; MoveTo _ 2 1].

Example C77_example :
  history NonTrivial (blank nat) 0 (a_parse ++ [Emplace 1 9; Destroy _ 1; Destroy _ 2])
  /\ option_map (fun w => (value w 0, value w 1, value w 2, made w, gone w))
       (run NonTrivial (start nat) a_parse)
     = Some (None, Some (Some (Moved _)), Some (Some (Val 7)), 3, 1)
  /\ option_map (fun w => (made w, gone w))
       (run NonTrivial (start nat) (a_parse ++ [Emplace 1 9; Destroy _ 1; Destroy _ 2]))
     = Some (4, 4)
  /\ run NonTrivial (start nat) [New _; Destroy _ 0; Emplace 0 1] = None.
Proof.
  split; [|vm_compute; repeat split].
  cbn. unfold note, blank. cbn. repeat split; discriminate.
Qed.
