(** Property theorems C57 (sinks and folds) and C58 (bind and composition). *)
From Verif Require Import Prelude CbModel CbSpec CbProofs.

(** [as_list]: the container has one element for each call of the sink, or for each argument of
    the callback, in order, and the allocator that was given. *)
Theorem C57_list : forall (W A B : Type) (make : B -> A) f al xs (w : W),
  let r := sink_run (list_sink W make al) w xs in
  fst r = w /\ c_items (snd r) = map make xs /\ c_alloc (snd r) = al /\
  c_items (list_cb make f al (LElements xs)) = map make xs /\
  c_alloc (list_cb make f al (LElements xs)) = al.
Proof. exact list_ok. Qed.
Print Assumptions C57_list.

(** [as_collection]: every element that was added is there; a container that keeps only one of
    equal elements has the first one. *)
Theorem C57_collection : forall (W A B : Type) (same : A -> A -> bool) (make : B -> A) f al xs (w : W) multi,
  (forall x y, same x y = same y x) -> (forall x, same x x = true) ->
  (forall x y z, same x y = true -> same y z = true -> same x z = true) ->
  let r := sink_run (collection_sink W make same multi al) w xs in
  let c := collection_cb make same multi f al (LElements xs) in
  fst r = w /\ c_alloc (snd r) = al /\
  (if multi then c_items (snd r) = map make xs else first_of_each same (map make xs) (c_items (snd r))) /\
  c_items c = c_items (snd r) /\ c_alloc c = al.
Proof. exact collection_ok. Qed.
Print Assumptions C57_collection.

(** [concat]: the elements of all containers in order, as sink and as callback, whatever
    optional functions the container has. *)
Theorem C57_concat : forall (W A : Type) f (head : container A) tail (w : W),
  let r := sink_run (concat_sink W A f) w (head :: tail) in
  fst r = w /\ c_items (snd r) = concat (map (@c_items A) (head :: tail)) /\
  c_items (concat_cb f (Some (head, tail))) = concat (map (@c_items A) (head :: tail)) /\
  c_items (snd (sink_run (concat_sink W A f) w [])) = [] /\ c_items (concat_cb (A := A) f None) = [].
Proof. exact concat_ok. Qed.
Print Assumptions C57_concat.

(** [collect]: the callback is called once for each call of the sink, in order; the container
    has its results, without a container the result is the number of calls. *)
Theorem C57_collect : forall (W B A : Type) (f : W -> B -> W * A) al w bs,
  exists as_ w', calls f w bs as_ w' /\
  let r := sink_run (collect_sink f al) w bs in
  fst r = w' /\ c_items (snd r) = as_ /\ c_alloc (snd r) = al.
Proof.
  intros W B A f al w bs. destruct (calls_exact f bs w) as (as_ & w' & H & _).
  exists as_, w'. split; [exact H|]. now apply collect_ok.
Qed.
Print Assumptions C57_collect.
Theorem C57_collect_void : forall (W B : Type) (f : W -> B -> W) w bs w',
  calls (fun w b => (f w b, tt)) w bs (map (fun _ => tt) bs) w' ->
  sink_run (collect_void_sink f) w bs = (w', length bs).
Proof. exact collect_void_ok. Qed.
Print Assumptions C57_collect_void.

(** [fold], [fold_inplace]: the operation is called once for each call of the sink, in order,
    with the previous result; [count] is the number of calls. *)
Theorem C57_fold : forall (W B T : Type) (init : W -> W * T) (op : fold_op W B T) f w w0 t bs,
  op = Fold f \/ op = FoldInplace f -> init w = (w0, t) ->
  exists w' t', folds f w0 t bs w' t' /\ sink_run (fold_sink init op) w bs = (w', t').
Proof.
  intros W B T init op f w w0 t bs Hop Hi. destruct (folds_exact f bs w0 t) as (w' & t' & H & _).
  exists w', t'. split; [exact H|]. eapply fold_ok; eauto.
Qed.
Print Assumptions C57_fold.
Theorem C57_count : forall (W B : Type) (w : W) (bs : list B),
  sink_run (count_sink W B) w bs = (w, length bs).
Proof. exact count_ok. Qed.
Print Assumptions C57_count.

(** [as_aggregate]: the members are assigned once each, in order, starting with an empty object
    or the given one. *)
Theorem C57_aggregate : forall (W T M V : Type) (assign : M -> T -> V -> T) (zero : T) (w : W) ms,
  sink_run (agg_sink W assign zero) w ms = (w, fold_left (fun t mv => assign (fst mv) t (snd mv)) ms zero) /\
  agg_cb assign zero (AggMembers ms) = fold_left (fun t mv => assign (fst mv) t (snd mv)) ms zero /\
  (forall t, agg_cb assign zero (AggObject t ms) = fold_left (fun t mv => assign (fst mv) t (snd mv)) ms t).
Proof. exact agg_ok. Qed.
Print Assumptions C57_aggregate.

(** [callback(sink)], for every sink: as if each argument had been given to the sink alone, in
    order. *)
Theorem C57_callback : forall (W A R : Type) (s : sink W A R) w args,
  cb_from_sink s w args = sink_run s w args.
Proof. exact callback_ok. Qed.
Print Assumptions C57_callback.

(** A world that records the calls, most recent first. *)
Example C57_example :
  let f := fun (w : list nat) b => (b :: w, b + 1)%nat in
  c_items (snd (sink_run (list_sink unit (fun x : nat => x) 7) tt [3; 1; 2]%nat)) = [3; 1; 2]%nat /\
  c_items (snd (sink_run (collection_sink unit (fun x : nat => x) Nat.eqb false 7) tt [3; 1; 3; 2; 1]%nat)) = [3; 1; 2]%nat /\
  c_items (concat_cb (Features true false) (Some (Container [1] 1 0, [Container [2; 3] 2 0; Container [] 0 0; Container [4] 9 0])))%nat = [1; 2; 3; 4]%nat /\
  (let r := sink_run (collect_sink f 0) [] [5; 6; 5]%nat in fst r = [5; 6; 5]%nat /\ c_items (snd r) = [6; 7; 6]%nat) /\
  snd (sink_run (fold_sink (fun w : unit => (w, 1)) (Fold (fun w t b => (w, t * 10 + b))))%nat tt [2; 3]%nat) = 123%nat /\
  snd (cb_from_sink (count_sink unit nat) tt [2; 3; 9]%nat) = 3%nat.
Proof. vm_compute. repeat split; reflexivity. Qed.

(** [bind(callback, bound...)]: the callback is called with what the bound arguments stand for,
    in their order; if one of them does not stand for anything, the call is ill-formed. *)
Theorem C58_bind : forall (V S R : Type) (fn : list (arg V) -> R) (bs : list (bound V S)) state args r,
  Forall (@one_based V S) bs ->
  bind_call fn bs state args = Some r <->
  exists outs, Forall2 (stands_for state args) bs outs /\ r = fn (concat outs).
Proof. exact bind_ok. Qed.
Print Assumptions C58_bind.
(** [bind_sink]: the same for the arguments of [.sink()], where there are no values. *)
Theorem C58_bind_sink : forall (V S R : Type) (fn : list (arg V) -> R) (bs : list (bound V S)) state r,
  Forall (@one_based V S) bs -> existsb (@is_all V S) bs = false ->
  (state = None -> Forall (fun b => exists a, b = BValue a) bs) ->
  bind_sink fn bs state = Some r <->
  exists outs, Forall2 (stands_for state []) bs outs /\ r = fn (concat outs).
Proof. exact bind_sink_ok. Qed.
Print Assumptions C58_bind_sink.

(** [f | g] calls [g] with the result of [f], each one with the state if it takes it; it is
    associative, also behind a sink. *)
Theorem C58_compose : forall (S V : Type) (f g h : callback S V) s args,
  (forall v, call_with s f args = Some v -> call_with s (compose f g) args = call_with s g [v]) /\
  (call_with s f args = None -> call_with s (compose f g) args = None) /\
  (forall v, cb_plain f args = Some v -> cb_plain (compose f g) args = cb_plain g [v]) /\
  call_with s (compose (compose f g) h) args = call_with s (compose f (compose g h)) args /\
  cb_plain (compose (compose f g) h) args = cb_plain (compose f (compose g h)) args.
Proof.
  intros S V f g h s args. split; [|split; [|split; [|apply compose_assoc]]].
  - intros v H. rewrite (proj2 (compose_ok f g s args)), H. reflexivity.
  - intros H. rewrite (proj2 (compose_ok f g s args)), H. reflexivity.
  - intros v H. rewrite (proj1 (compose_ok f g s args)), H. reflexivity.
Qed.
Print Assumptions C58_compose.
Theorem C58_compose_sink : forall (S V K : Type) (k : K) (f g h : callback S V) s args,
  let c := composed_then (composed_then (compose_sink k f) g) h in
  cs_sink c = k /\ call_with s (cs_cb c) args = call_with s (compose f (compose g h)) args.
Proof. intros. split; [reflexivity|]. apply compose_assoc. Qed.
Print Assumptions C58_compose_sink.

Example C58_example :
  let fn := fun l : list (arg nat) => l in
  bind_call (S := unit) fn [BNth 2 None None; BValue (Val 9); BNth 1 (Some (Val 7)) (Some (fun a => match a with Val v => Val (v + 1) | a => a end)); BAll]%nat
            None [Nullopt; Val 5]%nat = Some [Val 5; Val 9; Val 7; Nullopt; Val 5]%nat /\
  bind_call (S := unit) fn [BNth 3 None None]%nat None [Val 1; Val 2]%nat = None /\
  bind_call (S := unit) fn [BNth 3 (Some Nullopt) None]%nat None [Val 1; Val 2]%nat = Some [Nullopt] /\
  bind_sink (S := nat) fn [BState (fun s => Val s); BValue (Val 3)]%nat (Some 4%nat) = Some [Val 4; Val 3]%nat /\
  (let f := Callback (S := nat) (fun l => Some (list_sum l)) None in
   let g := Callback (fun _ => None) (Some (fun s l => Some (s * list_sum l)%nat)) in
   call_with 10%nat (compose f g) [1; 2; 3]%nat = Some 60%nat /\ cb_plain (compose f g) [1]%nat = None).
Proof. vm_compute. repeat split; reflexivity. Qed.
