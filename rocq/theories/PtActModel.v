(** parse_as_tree: the handler that turns parse events into calls on the tree builder.

    Source: include/lexy/action/parse_as_tree.hpp:14-148.

    The events are those of RuleModel.v, which does not contain operator expressions; hence the
    three functions for operation chains (lines 86-106) are not here, see the calls [COpen],
    [CSet] and [CClose] of PtModel.v.  Each production has an event handler object of its own
    that holds a marker and the position where the production began; the objects are nested like
    the productions, so they are a stack here.  The result of validation (the [_validate] member)
    is in ActionModel.v. *)
From Verif Require Import Prelude RuleModel PtModel.
Close Scope N_scope.

(** class _pth and the event handlers on the stack: _depth, *_tree, _builder with the markers,
    the production_begin of each active production. *)
Record handler := Handler {
  h_depth : nat;
  h_tree : tree;
  h_build : option (builder * list marker);
  h_begins : list nat
}.

Section Handler.
Variable cap : nat.                  (* the size of a block *)
Variable len : nat.                  (* the length of the input *)
Variable infos : nat -> info.        (* production_info of a production *)
Variable root : nat.                 (* the production that is parsed *)

(** The moved-from tree: pt_buffer's move constructor leaves an empty buffer
    (parse_tree.hpp:226-232), the other members are copied. *)
Definition moved (t : tree) : tree := Tree new_buffer (p_root t) (p_size t) (p_depth t).

Definition calls (cs : list call) (h : handler) : option (builder * list marker) :=
  match h_build h with Some x => do_calls cap cs x | None => None end.

Definition on (ev : event) (h : handler) : option handler :=
  let d := h_depth h in
  let with_build x d bs := match x with Some x => Some (Handler d (h_tree h) (Some x) bs) | None => None end in
  match ev with
  | EGStart _ => (* 31-36 *)
      if d =? 0 then
        match start cap (p_buf (h_tree h)) (infos root) with
        | Some t => Some (Handler d (moved (h_tree h)) (Some (t, [])) (h_begins h))
        | None => None
        end
      else None
  | EGFinish p => (* 37-46: dsl::any matches the rest of the input *)
      if d =? 0 then
        match h_build h with
        | Some (t, []) =>
            match finish cap p len t with
            | Some tr => Some (Handler d tr None (h_begins h))
            | None => None
            end
        | _ => None
        end
      else None
  | EGCancel _ => (* 47-52 *)
      if d =? 0 then Some (Handler d (clear (h_tree h)) None (h_begins h)) else None
  | EPStart q p => (* 54-60 *)
      if 0 <? d
      then with_build (calls [CStart (infos q)] h) (S d) (p :: h_begins h)
      else Some (Handler (S d) (h_tree h) (h_build h) (p :: h_begins h))
  | EPFinish q _ => (* 62-73 *)
      match d, h_begins h with
      | S d, b :: bs =>
          if 0 <? d then
            match h_build h with
            | Some (t, _) =>
                with_build (calls (if m_count (t_cur t) =? 0 then [CToken KPosition b b; CFinish] else [CFinish]) h) d bs
            | None => None
            end
          else Some (Handler d (h_tree h) (h_build h) bs)
      | _, _ => None
      end
  | EPCancel q p => (* 75-87 *)
      match d, h_begins h with
      | S d, b :: bs =>
          if 0 <? d then with_build (calls [CCancel; CToken KError b p] h) d bs
          else Some (Handler d (h_tree h) (h_build h) bs)
      | _, _ => None
      end
  | EToken k b e => with_build (calls [CToken k b e] h) d (h_begins h) (* 108-112 *)
  | EError _ _ _ | EBack _ _ | ERStart _ | ERFinish _ | ERCancel _ => Some h (* 114-125 *)
  end.

Fixpoint on_all (es : list event) (h : handler) : option handler :=
  match es with
  | [] => Some h
  | e :: es => match on e h with Some h => on_all es h | None => None end
  end.
End Handler.

(** parse_as_tree, parse_as_tree.hpp:150-208: the tree afterwards. *)
Definition info_of (prods : nat -> production) (transparent : nat -> bool) (q : nat) : info :=
  Info q (p_token (prods q)) (transparent q).
Definition parse_as_tree (cap : nat) (inp : list N) (prods : nat -> production)
  (transparent : nat -> bool) (n p : nat) (old : tree) : option (out * tree) :=
  match action inp prods n p with
  | Res o s _ =>
      match on_all cap (length inp) (info_of prods transparent) p (rev (trace s))
              (Handler 0 old None []) with
      | Some h => Some (o, h_tree h)
      | None => None
      end
  | _ => None
  end.
