(** * The fully connected networks built from a configuration by modules.py: C71. *)
From Coq Require Import String Reals ZArith List Bool Lia Lra Arith.
From Verif Require Import Spec Tensor Utils PolynomialLayers LagrangeND Layers Networks ConvNetworks Observe ObserveNet
  TensorFacts HeapFacts NetFacts NetCopy NetTypes Prop_MLP Modules.
Import ListNotations.
Local Open Scope R_scope.
Local Open Scope nat_scope.

Lemma batch_norm_on_width eps s W : on_width W (batch_norm1d eps s).
Proof. intros x B Hx. unfold batch_norm1d. rewrite Hx. eexists. split; [reflexivity|]. cbn [shape]. now rewrite ?Hx. Qed.
Lemma network_layers_later h h' net : wf_heap h -> later h h' -> net < length h -> network_layers h' net = network_layers h net.
Proof.
  intros W L Hn. pose proof L as (_ & _ & R). unfold network_layers, model_of.
  assert (Q : forall m, (exists i, i < length h /\ In m (refs (get h i))) ->
    match get h' m with OSequential ls => filter (fun k => is_layer (get h' k)) ls | _ => [] end =
    match get h m with OSequential ls => filter (fun k => is_layer (get h k)) ls | _ => [] end).
  { intros m (i & Hi & Him). pose proof (W i Hi m Him) as Hm. pose proof (R m ltac:(lia)) as Rm.
    destruct (get h m) eqn:Em; inversion Rm; try reflexivity. apply (count_later h h'); [exact L|].
    intros k Hk. assert (In k (refs (get h m))) as Hk' by (rewrite Em; exact Hk). pose proof (W m ltac:(lia) k Hk'). lia. }
  pose proof (R net Hn) as Rn. destruct (get h net) eqn:En; inversion Rn; try reflexivity; apply Q; exists net; rewrite En; (split; [exact Hn|cbn; tauto]).
Qed.
Lemma normal_on_width (v : bool) s W f ps : (if v then Some (LazyBatchNorm1d false s) else None) = Some (f, ps) -> on_width W f.
Proof. destruct v; [|discriminate]. unfold LazyBatchNorm1d, batch_norm. intros E. injection E as <- _. apply batch_norm_on_width. Qed.

(** "high_order": one input layer, [hidden.layers] hidden layers and one output layer; in eval mode it maps
    [batch, input.width] to [batch, output.width], whatever its weights and the states of its normalisations have become.  The
    orders of hidden layers are those of the input layer. *)
Theorem C71_high_order : forall g u draw s sc c v lt k ni no iw si ow so hw hl sh, let n := c_net c in
  nt_model_type n = Some "high_order"%string -> nt_normalize n = Some v -> nt_layer_type n = Some (Scalar lt) ->
  nt_n n = Some k -> nt_n_in n = Some ni -> nt_n_out n = Some no ->
  nt_input_width n = Some iw -> nt_input_segments n = Some si -> nt_output_width n = Some ow -> nt_output_segments n = Some so ->
  nt_hidden_width n = Some hw -> nt_hidden_layers n = Some hl -> nt_hidden_segments n = Some sh ->
  1 <= iw -> 1 <= hw -> 1 <= ow ->
  flat_layer lt (or_ints (option_map to_ints ni) (to_ints k)) (option_map to_ints si) ->
  ((hl <= 0)%Z \/ flat_layer lt (or_ints (option_map to_ints ni) (to_ints k)) (option_map to_ints sh)) ->
  flat_layer lt (or_ints (option_map to_ints no) (to_ints k)) (option_map to_ints so) ->
  exists h root, select_network false g u draw s sc c = Ok (NFull h root) /\
    length (network_layers h root) = Z.to_nat hl + 2 /\ maps_width h root iw ow.
Proof.
  intros g u draw s sc c v lt k ni no iw si ow so hw hl sh n M Hv Hl Hk Hi Ho Hiw Hsi How Hso Hhw Hhl Hsh Wi Wh Wo Fi Fh Fo.
  unfold select_network. fold n. rewrite M. unfold normalization_of. rewrite Hv. cbn [key rbind].
  change (String.eqb "high_order" "high_order_input") with false. rewrite String.eqb_refl. cbv iota.
  unfold high_order. rewrite Hl, Hk, Hi, Ho, Hiw, Hsi, How, Hso, Hhw, Hhl, Hsh. cbn [key rbind layer_name].
  do 12 (erewrite (mthen_ok (mlift (Ok _)) _ [] _ []) by reflexivity). cbn [layer_name].
  erewrite (mthen_ok (mlift (Ok _)) _ [] _ []) by reflexivity.
  match goal with |- context [HighOrderMLP g ?a' []] => set (a := a') end.
  assert (W0 : wf_heap []) by (intros i Hi0; cbn in Hi0; lia).
  destruct (C43_mlp_widths g a [] W0) as (net & e & E & C & Mw).
  - constructor; unfold a; cbn; auto; try lra; try lia; try discriminate.
    + destruct Fh as [Z0|F]; [left; lia|right; exact F].
    + apply (normal_on_width v s).
  - rewrite E. cbn [rbind fst snd]. exists ([] ++ e), net. split; [reflexivity|]. split; [exact C|exact Mw].
Qed.
Print Assumptions C71_high_order.

(** "high_order_input" (given the top level key [output.width]): one high order layer, a normalisation if asked for, then a
    LowOrderMLP with max(hidden.layers-1, 0) hidden layers, so 0 and 1 hidden layers give networks of the same depth. *)
Theorem C71_high_order_input : forall g u draw s sc c v lt k iw si ow hw hl, let n := c_net c in
  nt_model_type n = Some "high_order_input"%string -> nt_normalize n = Some v -> nt_layer_type n = Some (Scalar lt) ->
  nt_n n = Some k -> nt_input_width n = Some iw -> nt_input_segments n = Some si -> c_output_width c = Some ow ->
  nt_hidden_width n = Some hw -> nt_hidden_layers n = Some hl ->
  1 <= iw -> 1 <= hw -> flat_layer lt (to_ints k) (option_map to_ints si) ->
  exists h root input norms lower, select_network false g u draw s sc c = Ok (NFull h root) /\
    get h root = OSequential (input :: norms ++ [lower]) /\ is_layer (get h input) = true /\
    length norms = (if v then 1 else 0) /\ (forall j, In j norms -> is_layer (get h j) = false) /\
    length (network_layers h lower) = Z.to_nat (hl - 1) + 2 /\ maps_width h root iw ow.
Proof.
  intros g u draw s sc c v lt k iw si ow hw hl n M Hv Hl Hk Hiw Hsi How Hhw Hhl Wi Wh Fi.
  unfold select_network. fold n. rewrite M. unfold normalization_of. rewrite Hv. cbn [key rbind]. rewrite String.eqb_refl.
  unfold high_order_input. fold n. rewrite Hl, Hk, Hiw, Hsi, How, Hhw, Hhl. cbn [key rbind layer_name].
  do 5 (erewrite (mthen_ok (mlift (Ok _)) _ [] _ []) by reflexivity). cbn [layer_name].
  erewrite (mthen_ok (mlift (Ok _)) _ [] _ []) by reflexivity.
  assert (W0 : wf_heap []) by (intros i Hi0; cbn in Hi0; lia).
  destruct (makes_flat g [] lt (to_ints k) iw hw (option_map to_ints si) None 2%R false ""%string W0 Fi Wi Wh) as (input & e1 & E1 & W1 & T1 & Y1).
  rewrite (mthen_ok _ _ _ _ _ E1). set (h1 := [] ++ e1) in *.
  assert (Nm : exists norms h2, (match (if v then Some (LazyBatchNorm1d false s) else None) with
                 | Some (f, ps) => b <~ alloc (fun _ => OModule f ps);; mret [b] | None => mret [] end) h1 = Ok (norms, h2) /\
      later h1 h2 /\ typed_list h2 hw norms hw /\ length norms = (if v then 1 else 0) /\ forall j, In j norms -> is_layer (get h2 j) = false).
  { destruct v.
    - unfold LazyBatchNorm1d, batch_norm. set (o := OModule (batch_norm1d _ s) _). eexists _, (h1 ++ [o]). split; [reflexivity|].
      split; [apply later_app, wf_snoc; [exact W1|now cbn]|]. split; [|split; [reflexivity|]].
      + apply typed_list_one. eapply typed_module; [rewrite app_length; cbn; lia|apply get_last|apply batch_norm_on_width].
      + intros j [<-|[]]. now rewrite get_last.
    - exists [], h1. split; [reflexivity|]. split; [replace h1 with (h1 ++ []) at 2 by apply app_nil_r; apply later_app; now rewrite app_nil_r|].
      split; [constructor|]. split; [reflexivity|]. intros j []. }
  destruct Nm as (norms & h2 & E2 & L2 & T2 & Ln & Yn). rewrite (mthen_ok _ _ _ _ _ E2).
  do 2 (erewrite (mthen_ok (mlift (Ok _)) _ h2 _ h2) by reflexivity).
  set (ro := OModule (fun x => Ok (relu x)) []). set (h3 := h2 ++ [ro]).
  assert (W3 : wf_heap h3) by (apply wf_snoc; [apply L2|now cbn]). assert (L3 : later h2 h3) by now apply later_app.
  erewrite (mthen_ok (alloc _) _ h2 (length h2) h3) by reflexivity.
  destruct (low_order_typed g hw ow (Z.to_nat (hl - 1)) hw (Some (length h2)) (if v then Some (LazyBatchNorm1d false s) else None) h3 W3)
    as (lower & e4 & E4 & C4 & W4 & T4).
  { intros f ps. apply normal_on_width. }
  { intros j Hj. injection Hj as <-. split; [unfold h3; rewrite app_length; cbn; lia|]. eexists _, _. split; [apply get_last|].
    intros x B Hx. eexists. split; reflexivity. }
  rewrite (mthen_ok _ _ _ _ _ E4). set (h4 := h3 ++ e4) in *. assert (L4 : later h3 h4) by now apply later_app.
  unfold alloc. cbn [rbind fst snd app]. set (root := OSequential (input :: norms ++ [lower])).
  assert (In4 : input < length h4).
  { destruct T1 as (Q & _). destruct L2 as (_ & Q2 & _), L3 as (_ & Q3 & _), L4 as (_ & Q4 & _). lia. }
  assert (Tn4 : typed_list h4 hw norms hw) by (eapply typed_list_later; [exact L4|]; eapply typed_list_later; eauto).
  assert (W5 : wf_heap (h4 ++ [root])).
  { apply wf_snoc; [exact W4|]. cbn. intros j [<-|Hj]; [exact In4|]. apply in_app_or in Hj. destruct Hj as [Hj|[<-|[]]]; [|exact (proj1 T4)].
    eapply typed_list_lt; eauto. }
  assert (L5 := later_app _ _ W5).
  exists (h4 ++ [root]), (length h4), input, norms, lower. split; [reflexivity|]. split; [apply get_last|]. split; [|split; [exact Ln|split; [|split]]].
  - assert (L14 : later h1 (h4 ++ [root])) by (eapply later_trans; [exact L2|]; eapply later_trans; [exact L3|]; eapply later_trans; eauto).
    destruct L14 as (_ & _ & R). specialize (R input (proj1 T1)). destruct (get h1 input); try discriminate Y1; inversion R; reflexivity.
  - intros j Hj. assert (L25 : later h2 (h4 ++ [root])) by (eapply later_trans; [exact L3|]; eapply later_trans; eauto).
    pose proof (typed_list_lt _ _ _ _ _ T2 Hj) as Lj. destruct L25 as (_ & _ & R). specialize (R j Lj). specialize (Yn j Hj).
    destruct (get h2 j); try discriminate. inversion R. reflexivity.
  - rewrite <- C4. f_equal. apply network_layers_later; [exact W4|exact L5|exact (proj1 T4)].
  - apply typed_maps; [exact W5|]. eapply typed_sequential; [rewrite app_length; cbn; lia|apply get_last|].
    econstructor; [eapply (typed_later h1); [|exact T1]|].
    + eapply later_trans; [exact L2|]; eapply later_trans; [exact L3|]; eapply later_trans; eauto.
    + eapply typed_list_app; [eapply typed_list_later; eauto|]. apply typed_list_one. eapply typed_later; eauto.
Qed.
Print Assumptions C71_high_order_input.

(** config/net/high_order_mlp.yaml with smaller sizes. *)
Definition mlp_cfg (model_type : string) : cfg := mkCfg
  (mkNetCfg (Some true) (Some model_type) (Some (Scalar "continuous"%string)) (Some (Scalar 5)) (Some (Some (Scalar 3))) (Some None) (Some None)
     (Some 4) (Some (Some (Scalar 2))) (Some 6) (Some (Some (Scalar 3))) (Some 7) (Some 2%Z) (Some (Some (Scalar 2)))
     None None None None None None None None) None (Some 6).
Example C71_case : (exists h root, select_network false (fun _ _ => 1%R) (fun _ _ => 0%R) (fun _ _ => 0%R) bn_fresh (fun _ => bn_fresh) (mlp_cfg "high_order") = Ok (NFull h root) /\
    length (network_layers h root) = 4 /\ maps_width h root 4 6) /\
  exists h root, select_network false (fun _ _ => 1%R) (fun _ _ => 0%R) (fun _ _ => 0%R) bn_fresh (fun _ => bn_fresh) (mlp_cfg "high_order_input") = Ok (NFull h root) /\
    maps_width h root 4 6.
Proof.
  assert (F : forall k s, 1 <= k -> 1 <= s -> flat_layer "continuous" (Int k) (Some (Int s))).
  { intros k s Hk Hs. right. right. split; [cbn; auto|]. exists k, s. auto. }
  split.
  - apply (C71_high_order _ _ _ _ _ (mlp_cfg "high_order") true "continuous" (Scalar 5) (Some (Scalar 3)) None 4 (Some (Scalar 2)) 6 (Some (Scalar 3)) 7 2%Z (Some (Scalar 2)));
      try reflexivity; try lia; [|right|]; cbn; apply F; lia.
  - destruct (C71_high_order_input (fun _ _ => 1%R) (fun _ _ => 0%R) (fun _ _ => 0%R) bn_fresh (fun _ => bn_fresh) (mlp_cfg "high_order_input") true "continuous"
      (Scalar 5) 4 (Some (Scalar 2)) 6 7 2%Z) as (h & root & i & ns & lo & E & _ & _ & _ & _ & _ & Mw); try reflexivity; try lia; [cbn; apply F; lia|].
    exists h, root. auto.
Qed.
