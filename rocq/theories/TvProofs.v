(** The visualization of trees. *)
From Coq Require Import String Ascii.
From Verif Require Import Prelude CodecModel CodecSpec LitModel ClassSpec LocSpec RuleModel
  PtModel PtSpec PtMem PtProofs PtNav PtWalk PtMain VisModel VisSpec VisProofs VisText VisShow VisInj VisMain
  RepModel RepSpec RepProofs RepMain TvModel TvSpec.
Close Scope string_scope.
Open Scope N_scope.

(** ** The text, as a list *)
Section Names.
Variables (token_name : tkind -> list N) (production_name : nat -> list N).
Variables (e : lexeme_encoding) (inp : list N).

Fixpoint t_lines (label : labels) (arr : list bool) (i n : nat) : option (list N) :=
  match n with
  | O => Some []
  | S n' =>
    match nth_error arr i with
    | None => None
    | Some b => option_map (app (if b then l_space label else l_line label)) (t_lines label arr (S i) n')
    end
  end.
Definition t_prefix (opts : options) (arr : list bool) (d : nat) (last : bool) : option (list N) :=
  if (d =? 0)%nat then Some []
  else option_map (fun t => t_color opts Faint [] ++ t ++
                    (if last then l_end (label_of opts) else l_branch (label_of opts)) ++ t_color opts Reset [])
         (t_lines (label_of opts) arr 1 (d - 1)).
Definition t_name (opts : options) (name : list N) : list N := t_color opts Bold [] ++ name ++ t_color opts Reset [].
Definition t_units_of (opts : options) (units : list N) : list N :=
  match units with [] => [] | _ => str ": " ++ t_lexeme e units (set_flag opts visualize_space) end.
Definition t_step (opts : options) (m : memory) (arr : list bool) (d : nat) (x : titer) : option (list N * list bool * nat) :=
  let (event, node) := x in
  match PtModel.is_last_child m node with
  | None => None
  | Some last =>
    match event with
    | Enter =>
      if (d <=? N.to_nat (vo_max_tree_depth opts))%nat then
        match t_prefix opts arr d last, kind_name token_name production_name m node with
        | Some p, Some name =>
          if (d =? N.to_nat (vo_max_tree_depth opts))%nat then
            Some (p ++ t_name opts name ++ str ": " ++ t_ellipsis opts ++ [0x0A], arr, S d)
          else
            match store arr d last with
            | Some arr => Some (p ++ t_name opts name ++ str ":" ++ [0x0A], arr, S d)
            | None => None
            end
        | _, _ => None
        end
      else Some ([], arr, S d)
    | Exit => Some ([], arr, pred d)
    | Leaf =>
      if (d <=? N.to_nat (vo_max_tree_depth opts))%nat then
        match t_prefix opts arr d last, kind_name token_name production_name m node, lexeme_units inp m node with
        | Some p, Some name, Some units => Some (p ++ t_name opts name ++ t_units_of opts units ++ [0x0A], arr, d)
        | _, _, _ => None
        end
      else Some ([], arr, d)
    end
  end.
Fixpoint t_steps (opts : options) (m : memory) (arr : list bool) (d : nat) (l : list titer) : option (list N * list bool * nat) :=
  match l with
  | [] => Some ([], arr, d)
  | x :: l' =>
    match t_step opts m arr d x with
    | Some (t, arr, d) =>
      match t_steps opts m arr d l' with Some (t', arr, d) => Some (t ++ t', arr, d) | None => None end
    | None => None
    end
  end.
Definition t_tree (opts : options) (fuel : nat) (t : tree) : option (list N) :=
  if (max_tree_depth_limit <? N.to_nat (vo_max_tree_depth opts))%nat then None
  else
    match (match p_root t with None => Some [] | Some r => traverse fuel (b_mem (p_buf t)) r end) with
    | None => None
    | Some l => option_map (fun x => fst (fst x)) (t_steps opts (b_mem (p_buf t)) (repeat false max_tree_depth_limit) 0 l)
    end.

Section Out.
Context {W I : Type} (put : W -> I -> N -> W * I).
Notation plain_or_shared := (plain_or_shared (I := I)).

Lemma lines_text label arr n : forall o i,
  write_lines put label arr o i n = option_map (write_str put o) (t_lines label arr i n).
Proof.
  induction n as [|n IH]; intros o i; [reflexivity|]. cbn [write_lines t_lines].
  destruct (nth_error arr i) as [[]|]; [| |reflexivity]; rewrite IH; destruct (t_lines label arr (S i) n); cbn [option_map];
    rewrite ?str_app; reflexivity.
Qed.
Lemma prefix_text opts arr o d last : plain_or_shared opts ->
  write_prefix put opts arr o d last = option_map (write_str put o) (t_prefix opts arr d last).
Proof.
  intros H. unfold write_prefix, t_prefix. destruct (d =? 0)%nat; [reflexivity|]. cbv zeta. rewrite lines_text.
  destruct (t_lines _ _ _ _); [|reflexivity]. cbn [option_map]. rewrite !color_text1, !str_app, <- ?app_assoc. reflexivity.
Qed.
Definition written_step (o : W * I) (r : option (list N * list bool * nat)) : option (W * I * list bool * nat) :=
  match r with Some (t, arr, d) => Some (write_str put o t, arr, d) | None => None end.
Lemma set_shared opts f : N.land f visualize_use_color = 0 -> plain_or_shared opts -> plain_or_shared (set_flag opts f).
Proof.
  intros Hf [H|H]; [left|now right]. unfold is_set in *. cbn [set_flag vo_flags].
  rewrite N.land_lor_distr_l, Hf, N.lor_0_r. exact H.
Qed.
Lemma step_text opts m o arr d x : plain_or_shared opts ->
  tree_step put token_name production_name e inp opts m (o, arr, d) x = written_step o (t_step opts m arr d x).
Proof.
  intros H. unfold tree_step, t_step. destruct x as [event node].
  destruct (PtModel.is_last_child m node) as [last|]; [|reflexivity].
  destruct event; [|reflexivity|].
  - destruct (d <=? _)%nat; [|reflexivity]. rewrite prefix_text by exact H.
    destruct (t_prefix _ _ _ _) as [p|]; [|reflexivity]. cbn [option_map].
    destruct (kind_name _ _ _ _) as [name|]; [|reflexivity]. cbv zeta. unfold t_name.
    destruct (d =? _)%nat.
    + rewrite !color_text1, ellipsis_text, !str_app. cbn [written_step]. rewrite <- ?app_assoc. reflexivity.
    + destruct (store arr d last) as [arr'|]; [|reflexivity]. rewrite !color_text1, !str_app. cbn [written_step].
      rewrite <- ?app_assoc. reflexivity.
  - destruct (d <=? _)%nat; [|reflexivity]. rewrite prefix_text by exact H.
    destruct (t_prefix _ _ _ _) as [p|]; [|reflexivity]. cbn [option_map].
    destruct (kind_name _ _ _ _) as [name|]; [|reflexivity]. destruct (lexeme_units _ _ _) as [units|]; [|reflexivity].
    cbv zeta. unfold t_name, t_units_of. destruct units as [|c units].
    + rewrite !color_text1, !str_app. cbn [written_step]. rewrite <- ?app_assoc. reflexivity.
    + rewrite lexeme_text by (apply set_shared; [reflexivity|exact H]).
      rewrite !color_text1, !str_app. cbn [written_step]. rewrite <- ?app_assoc. reflexivity.
Qed.
Lemma steps_text opts m l : plain_or_shared opts -> forall o arr d,
  tree_steps put token_name production_name e inp opts m (o, arr, d) l = written_step o (t_steps opts m arr d l).
Proof.
  intros H. induction l as [|x l IH]; intros o arr d; [reflexivity|]. cbn [tree_steps t_steps].
  rewrite step_text by exact H. destruct (t_step _ _ _ _ _) as [[[t arr'] d']|]; [|reflexivity]. cbn [written_step].
  rewrite IH. destruct (t_steps _ _ _ _ _) as [[[t' arr''] d'']|]; [|reflexivity]. cbn [written_step]. now rewrite str_app.
Qed.
Lemma tree_text opts fuel o t : plain_or_shared opts ->
  visualize_tree put token_name production_name e inp opts fuel o t = option_map (write_str put o) (t_tree opts fuel t).
Proof.
  intros H. unfold visualize_tree, t_tree. destruct (_ <? _)%nat; [reflexivity|].
  destruct (match p_root t with None => _ | Some _ => _ end) as [l|]; [|reflexivity].
  rewrite steps_text by exact H. destruct (t_steps _ _ _ _ _) as [[[x arr] d]|]; reflexivity.
Qed.
End Out.

(** ** Colors are not displayed *)
Hypothesis clean_tokens : forall k, clean (token_name k).
Hypothesis clean_productions : forall p, clean (production_name p).
Definition Ds (x y : option (list N * list bool * nat)) : Prop :=
  match x, y with
  | Some (t, a, d), Some (t', a', d') => D t t' /\ a = a' /\ d = d'
  | None, None => True
  | _, _ => False
  end.
Definition Dq (x y : option (list N)) : Prop :=
  match x, y with Some t, Some t' => D t t' | None, None => True | _, _ => False end.
Lemma label_reset o : label_of (VisModel.reset o visualize_use_color) = label_of o.
Proof. unfold label_of. now rewrite reset_unicode. Qed.
Lemma D_label_parts o : D (l_space (label_of o)) (l_space (label_of o)) /\ D (l_line (label_of o)) (l_line (label_of o)) /\
  D (l_end (label_of o)) (l_end (label_of o)) /\ D (l_branch (label_of o)) (l_branch (label_of o)).
Proof. unfold label_of. destruct (is_set o visualize_use_unicode); repeat split; now apply D_str. Qed.
Lemma D_lines o arr n : forall i, Dq (t_lines (label_of o) arr i n) (t_lines (label_of o) arr i n).
Proof.
  destruct (D_label_parts o) as (H1 & H2 & _).
  induction n as [|n IH]; intros i; [exact D_nil|]. cbn [t_lines]. destruct (nth_error arr i) as [b|]; [|exact I].
  specialize (IH (S i)). destruct (t_lines _ _ _ _); [|exact I]. cbn [option_map Dq] in *. apply D_app; [now destruct b|exact IH].
Qed.
Lemma D_prefix o arr d last : Dq (t_prefix o arr d last) (t_prefix (VisModel.reset o visualize_use_color) arr d last).
Proof.
  unfold t_prefix. destruct (d =? 0)%nat; [exact D_nil|]. rewrite label_reset.
  pose proof (D_lines o arr (d - 1) 1) as HL. destruct (t_lines _ _ _ _); [|exact I]. cbn [option_map Dq] in *.
  destruct (D_label_parts o) as (_ & _ & H3 & H4).
  apply D_app; [apply D_color'|]. apply D_app; [exact HL|]. apply D_app; [now destruct last|apply D_color'].
Qed.
Lemma reset_set o : VisModel.reset (set_flag o visualize_space) visualize_use_color = set_flag (VisModel.reset o visualize_use_color) visualize_space.
Proof.
  unfold VisModel.reset, set_flag. cbn [vo_flags vo_max_tree_depth vo_max_lexeme_width vo_tab_width]. f_equal.
  apply N.bits_inj. intros n. rewrite N.ldiff_spec, !N.lor_spec, N.ldiff_spec.
  assert (H : N.testbit visualize_space n = true -> N.testbit visualize_use_color n = false).
  { intros H. assert (E : N.testbit (N.land visualize_space visualize_use_color) n = false) by apply N.bits_0.
    rewrite N.land_spec, H in E. exact E. }
  destruct (N.testbit visualize_space n) eqn:E1; [rewrite (H eq_refl); destruct (N.testbit (vo_flags o) n); reflexivity|].
  now rewrite !orb_false_r.
Qed.
Lemma D_name o name : clean name -> D (t_name o name) (t_name (VisModel.reset o visualize_use_color) name).
Proof. intros H. unfold t_name. apply D_app; [apply D_color'|]. apply D_app; [now apply D_clean|apply D_color']. Qed.
Lemma clean_kind m a name : kind_name token_name production_name m a = Some name -> clean name.
Proof.
  unfold kind_name. destruct (type_of m a) as [[]|]; [| |discriminate].
  - destruct (production_id m a); [|discriminate]. intros [= <-]. apply clean_productions.
  - destruct (token_kind m a); [|discriminate]. intros [= <-]. apply clean_tokens.
Qed.
Lemma D_ellipsis' o : D (t_ellipsis o) (t_ellipsis (VisModel.reset o visualize_use_color)).
Proof. unfold t_ellipsis. rewrite reset_unicode. destruct (is_set o visualize_use_unicode); now apply D_str. Qed.
Lemma D_step o m arr d x : Ds (t_step o m arr d x) (t_step (VisModel.reset o visualize_use_color) m arr d x).
Proof.
  unfold t_step. destruct x as [event node]. destruct (PtModel.is_last_child m node) as [last|]; [|exact I].
  cbn [VisModel.reset vo_max_tree_depth].
  assert (HN : D (str ":") (str ":") /\ D (str ": ") (str ": ") /\ D [0x0A] [0x0A]) by (repeat split; now apply D_str).
  destruct HN as (HN1 & HN2 & HN3). pose proof D_nil as HN4.
  pose proof (D_prefix o arr d last) as HP. fold (VisModel.reset o visualize_use_color).
  destruct event; [|split; auto|].
  - destruct (d <=? _)%nat; [|split; auto]. destruct (t_prefix o arr d last), (t_prefix (VisModel.reset o visualize_use_color) arr d last); try contradiction; [|exact I].
    destruct (kind_name _ _ _ _) as [name|] eqn:Ek; [|exact I]. pose proof (D_name o name (clean_kind _ _ _ Ek)).
    destruct (d =? _)%nat; [|destruct (store arr d last); [|exact I]]; (split; [|auto]);
      repeat first [exact HP | assumption | apply D_ellipsis' | apply D_app].
  - destruct (d <=? _)%nat; [|split; auto]. destruct (t_prefix o arr d last), (t_prefix (VisModel.reset o visualize_use_color) arr d last); try contradiction; [|exact I].
    destruct (kind_name _ _ _ _) as [name|] eqn:Ek; [|exact I]. pose proof (D_name o name (clean_kind _ _ _ Ek)).
    destruct (lexeme_units _ _ _) as [units|]; [|exact I]. split; [|auto].
    apply D_app; [exact HP|]. apply D_app; [assumption|]. apply D_app; [|exact HN3].
    unfold t_units_of. destruct units; [exact D_nil|]. apply D_app; [exact HN2|]. rewrite <- reset_set. apply D_lexeme.
Qed.
Lemma D_steps o m l : forall arr d, Ds (t_steps o m arr d l) (t_steps (VisModel.reset o visualize_use_color) m arr d l).
Proof.
  induction l as [|x l IH]; intros arr d; [split; [exact D_nil|auto]|]. cbn [t_steps].
  pose proof (D_step o m arr d x) as HS.
  destruct (t_step o m arr d x) as [[[t a] dd]|], (t_step (VisModel.reset o visualize_use_color) m arr d x) as [[[t' a'] dd']|]; try contradiction; [|exact I].
  destruct HS as (Ht & <- & <-). specialize (IH a dd).
  destruct (t_steps o m a dd l) as [[[u b] c]|], (t_steps (VisModel.reset o visualize_use_color) m a dd l) as [[[u' b'] c']|]; try contradiction; [|exact I].
  destruct IH as (Hu & <- & <-). split; [|auto]. now apply D_app.
Qed.
Lemma D_tree o fuel t : Dq (t_tree o fuel t) (t_tree (VisModel.reset o visualize_use_color) fuel t).
Proof.
  unfold t_tree. cbn [VisModel.reset vo_max_tree_depth]. destruct (_ <? _)%nat; [exact I|].
  destruct (match p_root t with None => _ | Some _ => _ end) as [l|]; [|exact I].
  fold (VisModel.reset o visualize_use_color).
  pose proof (D_steps o (b_mem (p_buf t)) l (repeat false max_tree_depth_limit) 0) as H.
  destruct (t_steps o _ _ _ _) as [[[u b] c]|], (t_steps (VisModel.reset o visualize_use_color) _ _ _ _) as [[[u' b'] c']|]; try contradiction; [|exact I].
  apply H.
Qed.
End Names.
