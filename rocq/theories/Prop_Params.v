(** * What the layers of the factory train (C45) and when "continuous_nd" can be built (C42). *)
From Coq Require Import String Reals ZArith List Lia Bool Arith.
From Verif Require Import Spec Tensor Utils LagrangePolynomial Basis PolynomialLayers ProductLayer LagrangeND Layers Networks
  Observe ObserveNet NDFacts HeapFacts NetFacts Prop_Factory Prop_Switch.
Import ListNotations.
Local Open Scope R_scope.

(** Names of the parameters of a layer of each type. *)
Definition parameter_names : list (string * list string) :=
  [("continuous", ["w"]); ("continuous_prod", ["w"]); ("discontinuous", ["w"]); ("discontinuous_prod", ["w"]);
   ("polynomial", ["w"; "result"]); ("fourier", ["w"; "result"]); ("product", ["weight"; "bias"]);
   ("baseline", ["weight"; "bias"]); ("baseline_relu", ["weight"; "bias"]);
   ("polynomial_2d", ["w"; "result"]); ("polynomial_3d", ["w"; "result"]); ("polynomial_4d", ["w"; "result"]);
   ("polynomial_5d", ["w"; "result"]); ("continuous_nd", ["w"]); ("switch_continuous", []); ("switch_discontinuous", [])]%string.

Lemma childless_parameters h i : wf_heap h -> (i < length h)%nat -> children (get h i) = [] ->
  parameters h i = map (pair i) (own_parameters (get h i)).
Proof.
  intros W Hi C. unfold parameters. change (modules h i) with (walk h i []). rewrite walk_unfold, C by auto. cbn. now rewrite app_nil_r.
Qed.
Lemma alloc_parameters h o : wf_heap h -> refs o = [] -> children o = [] ->
  parameters (h ++ [o]) (length h) = map (pair (length h)) (own_parameters o).
Proof.
  intros W Hr Hc. rewrite childless_parameters, get_last; auto; [|rewrite app_length; cbn; lia|now rewrite get_last].
  apply wf_snoc; auto. rewrite Hr. intros j [].
Qed.

(** The parameters belong to one newly made object [k], the layer itself except for the linear part of "baseline_relu". *)
Theorem C45_layer_parameters : forall g t a h i h' ps, wf_heap h -> In (t, ps) parameter_names ->
  high_order_fc_layers g t a h = Ok (i, h') ->
  exists k, (length h <= k < length h')%nat /\ (t <> "baseline_relu"%string -> k = i) /\ parameters h' i = map (pair k) ps.
Proof.
  intros g t a h i h' ps W H E. unfold parameter_names in H.
  assert (One : forall o, refs o = [] -> children o = [] -> own_parameters o = ps -> Ok (length h, h ++ [o]) = Ok (i, h') ->
      exists k, (length h <= k < length h')%nat /\ (t <> "baseline_relu"%string -> k = i) /\ parameters h' i = map (pair k) ps).
  { intros o Hr Hc Ho Eo. injection Eo as <- <-. exists (length h). rewrite app_length. cbn. repeat split; try lia. now rewrite alloc_parameters, Ho. }
  assert (Sw : forall c : bool, SwitchLayer (high_order_fc_layers_basic g) (if c then "continuous" else "discontinuous")%string 2 None a h = Ok (i, h') ->
      exists k, (length h <= k < length h')%nat /\ (t <> "baseline_relu"%string -> k = i) /\ parameters h' i = map (pair k) []).
  { intros c Es. assert (Ec : exists b1 b2, Ok (length ((h ++ [OPiecewise b1]) ++ [OPiecewise b2]),
        ((h ++ [OPiecewise b1]) ++ [OPiecewise b2]) ++ [OSwitch (fa_in a) (fa_out a) [length h; length (h ++ [OPiecewise b1])] None]) = Ok (i, h')).
    { unfold SwitchLayer, high_order_fc_layers_basic in Es. destruct c; cbn in Es; unfold make_piecewise in Es; cbn in Es; destruct (fa_n a); try discriminate;
        destruct (fa_segments a) as [[|]|]; try discriminate; unfold mthen, alloc, mret in Es; cbn in Es; eexists _, _; exact Es. }
    destruct Ec as (b1 & b2 & Ec). injection Ec as <- <-. eexists. split; [|split; [reflexivity|]].
    - rewrite !app_length. cbn. lia.
    - cbn [map]. eapply C45_switch_parameters; [| |apply get_last]; [|rewrite !app_length; cbn; lia].
      apply wf_snoc; [apply wf_snoc; [apply wf_snoc; [exact W|intros j []]|intros j []]|].
      intros j [<-|[<-|[]]]; rewrite !app_length; cbn; lia. }
  repeat (destruct H as [H|H]; [injection H as <- <-|]); try destruct H.
  1-4: cbn in E; unfold make_piecewise in E; destruct (fa_n a); try discriminate; destruct (fa_segments a) as [[|]|]; try discriminate;
    now apply (One (OPiecewise _)) in E.
  1-2: cbn in E; unfold make_polynomial, make_fourier in E; destruct (fa_n a); try discriminate; now apply (One (OFunc _)) in E.
  - cbn in E. unfold make_product in E. now apply (One (OProduct _)) in E.
  - cbn in E. now apply (One (OLinear _ _)) in E.
  - cbn in E. unfold LinearReluAdapter, Linear, mthen, alloc in E. cbn in E. injection E as <- <-. exists (length h). rewrite !app_length. cbn.
    split; [lia|]. split; [congruence|].
    set (o := OLinear _ _). assert (W1 : wf_heap (h ++ [o])) by (apply wf_snoc; auto; intros j []).
    assert (W2 : wf_heap ((h ++ [o]) ++ [OLinearRelu (length h)])).
    { apply wf_snoc; auto. intros j [<-|[]]. rewrite app_length. cbn. lia. }
    assert (G2 : get ((h ++ [o]) ++ [OLinearRelu (length h)]) (length h + 1) = OLinearRelu (length h)).
    { replace (length h + 1)%nat with (length (h ++ [o])) by (rewrite app_length; reflexivity). apply get_last. }
    assert (G1 : get ((h ++ [o]) ++ [OLinearRelu (length h)]) (length h) = o).
    { rewrite get_app_l by (rewrite app_length; cbn; lia). apply get_last. }
    assert (L2 : length ((h ++ [o]) ++ [OLinearRelu (length h)]) = (length h + 2)%nat) by (rewrite !app_length; cbn; lia).
    revert G1 G2 L2 W2. generalize ((h ++ [o]) ++ [OLinearRelu (length h)]). intros H2 G1 G2 L2 W2.
    unfold parameters. change (modules H2 (length h + 1)) with (walk H2 (length h + 1) []).
    rewrite walk_unfold, G2 by (auto; lia). cbn [mem existsb children fold_left app].
    rewrite walk_unfold, G1 by (auto; lia). cbn [mem existsb children fold_left app o].
    replace (length h =? length h + 1)%nat with false by (symmetry; apply Nat.eqb_neq; lia). cbn [orb flat_map]. rewrite G1, G2.
    reflexivity.
  - cbn in E. unfold make_polynomial_nd in E. destruct (new_PolynomialND _ _ _ _ _ _ _); [|discriminate]. now apply (One (OPolyND _)) in E.
  - cbn in E. unfold make_polynomial_nd in E. destruct (new_PolynomialND _ _ _ _ _ _ _); [|discriminate]. now apply (One (OPolyND _)) in E.
  - cbn in E. unfold make_polynomial_nd in E. destruct (new_PolynomialND _ _ _ _ _ _ _); [|discriminate]. now apply (One (OPolyND _)) in E.
  - cbn in E. unfold make_polynomial_nd in E. destruct (new_PolynomialND _ _ _ _ _ _ _); [|discriminate]. now apply (One (OPolyND _)) in E.
  - cbn in E. unfold make_piecewise_nd in E. destruct (fa_n a); try discriminate; destruct (fa_segments a); try discriminate.
    destruct (new_PiecewiseND _ _ _ _ _ _ _ _ _ _); [|discriminate]. now apply (One (OPiecewiseND _)) in E.
  - apply (Sw true), E.
  - apply (Sw false), E.
Qed.
Print Assumptions C45_layer_parameters.

Example C45_parameters_case : exists i h', high_order_fc_layers (fun k _ => INR k) "baseline_relu" (mkArgs (Int 3) 2 4 (Some (Int 2)) None None None 1 false "") [] = Ok (i, h') /\
  parameters h' i = [(0%nat, "weight"%string); (0%nat, "bias"%string)].
Proof. eexists _, _. split; reflexivity. Qed.

(** "continuous_nd" wants a list of orders, as many segments and at least one dimension; what is built has the sizes given. *)
Theorem C42_continuous_nd : forall g a h n, fa_n a = Ints n ->
  (fa_segments a = None -> high_order_fc_layers g "continuous_nd" a h = Err TypeError) /\
  (forall s, fa_segments a = Some (Ints s) -> length s <> length n -> high_order_fc_layers g "continuous_nd" a h = Err ValueError) /\
  (forall sl, n <> [] -> (fa_segments a = Some (Ints sl) /\ length sl = length n) \/ (exists k, fa_segments a = Some (Int k) /\ sl = repeat k (length n)) ->
     exists i h' l, high_order_fc_layers g "continuous_nd" a h = Ok (i, h') /\ get h' i = OPiecewiseND l /\
       pd_dimensions l = length n /\ pd_n l = n /\ pd_segments l = sl /\ pd_in l = fa_in a /\ pd_out l = fa_out a /\
       pd_length l = or_else (fa_length a) 2).
Proof.
  intros g a h n En. split; [|split].
  - intros Es. cbn. unfold make_piecewise_nd. now rewrite En, Es.
  - intros s Es N. cbn. unfold make_piecewise_nd, new_PiecewiseND. rewrite En, Es. cbn [rbind as_list].
    replace (length n =? length s)%nat with false by (symmetry; apply Nat.eqb_neq; lia). reflexivity.
  - intros sl Nn Hs. cbn [high_order_fc_layers]. exists (length h).
    assert (Hl : length sl = length n) by (destruct Hs as [(_ & H)|(k & _ & ->)]; [auto|apply repeat_length]).
    assert (Sa : exists s, fa_segments a = Some s /\ as_list s (length n) = sl) by (destruct Hs as [(H & _)|(k & H & ->)]; eexists; split; eauto).
    destruct Sa as (s & Es & Ea). cbn. unfold make_piecewise_nd, new_PiecewiseND. rewrite En, Es. cbn [rbind as_list]. rewrite Ea, Hl, Nat.eqb_refl. cbn [negb].
    destruct (basis_nd_spec n (default 2 (fa_length a)) Nn) as (p & -> & _). cbn [rbind]. unfold alloc. eexists _, _. split; [reflexivity|].
    rewrite get_last. split; [reflexivity|]. cbn. repeat split. 
Qed.
Print Assumptions C42_continuous_nd.
Example C42_continuous_nd_case : exists i h', high_order_fc_layers (fun k _ => INR k) "continuous_nd"
  (mkArgs (Ints [3; 2]%nat) 2 4 (Some (Int 2)) None None None 1 false "") [] = Ok (i, h').
Proof.
  destruct (C42_continuous_nd (fun k _ => INR k) (mkArgs (Ints [3; 2]%nat) 2 4 (Some (Int 2)) None None None 1 false "") [] [3; 2]%nat eq_refl) as (_ & _ & H).
  destruct (H [2; 2]%nat) as (i & h' & l & E & _); [discriminate|right; eexists; split; reflexivity|eauto].
Qed.
