(** * The layer factories (C42). *)
From Coq Require Import String Reals ZArith List Lia Bool.
From Verif Require Import Spec Tensor Utils LagrangePolynomial Basis PolynomialLayers LagrangeND Convolution Layers ConvNetworks
  Observe ObserveConv ObserveConvNet LayerFacts ConvFacts ConvNetFacts.
Import ListNotations.
Local Open Scope R_scope.

(** The names each factory announces in its error message. *)
Definition fc_names : list string :=
  ["baseline_relu"; "baseline"; "continuous"; "continuous_prod"; "discontinuous"; "discontinuous_prod"; "polynomial";
   "polynomial_prod"; "product"; "fourier"; "switch_continuous"; "switch_discontinuous"; "polynomial_2d"; "polynomial_3d";
   "polynomial_4d"; "polynomial_5d"; "continuous_nd"]%string.
Definition conv_names : list string :=
  ["continuous2d"; "continuous1d"; "continuous_prod2d"; "discontinuous2d"; "discontinuous1d"; "discontinuous_prod2d";
   "polynomial2d"; "polynomial1d"; "polynomial_prod2d"; "product2d"; "fourier2d"; "fourier1d"]%string.
Definition nd_names : list string := ["polynomial_2d"; "polynomial_3d"; "polynomial_4d"; "polynomial_5d"]%string.
Definition none_names : list string := ["continuous_prod2d"; "discontinuous_prod2d"; "polynomial_prod2d"; "product2d"]%string.

Ltac names := repeat match goal with
  | H : In _ (_ :: _) |- _ => destruct H as [<-|H]
  | H : In _ [] |- _ => destruct H end.
Ltac unknown H := repeat match goal with
  | |- context [String.eqb ?t ?s] =>
      destruct (String.eqb t s) eqn:?; [exfalso; apply H; match goal with E : String.eqb t s = true |- _ => apply String.eqb_eq in E; rewrite E end; cbn; tauto|]
  end.

Lemma basis_nd_err n len : LagrangeBasisND n len <> Err ValueError.
Proof.
  unfold LagrangeBasisND, nd_compute_indexes. destruct n as [|a n]; [cbn; congruence|].
  unfold view_infer, reshape. cbv zeta.
  repeat match goal with |- context [if ?c then _ else _] => destruct c end; cbn [rbind]; congruence.
Qed.

Theorem C42_fc_unknown : forall g t a h, ~ In t fc_names -> high_order_fc_layers g t a h = Err ValueError.
Proof.
  intros g t a h H. unfold high_order_fc_layers, high_order_fc_layers_basic, fc_layers_basic.
  unknown H. reflexivity.
Qed.
Print Assumptions C42_fc_unknown.

(** "continuous_nd" is the only announced name that can raise ValueError: it does for an integer n. *)
Theorem C42_fc_known : forall g t a h, In t fc_names -> t <> "continuous_nd"%string ->
  high_order_fc_layers g t a h <> Err ValueError.
Proof.
  intros g t a h H N. unfold fc_names in H. names; cbn;
    unfold SwitchLayer, replicate, high_order_fc_layers_basic, fc_layers_basic, make_piecewise, make_polynomial, make_fourier,
      make_product, make_polynomial_prod, make_polynomial_nd, LinearReluAdapter, Linear, mthen, alloc, mraise, mret; cbn;
    try (destruct (fa_n a); try destruct (fa_segments a) as [[|]|]; cbn; congruence);
    try congruence;
    unfold new_PolynomialND; destruct (fa_n a) as [k|l]; try congruence;
    destruct (LagrangeBasisND l _) eqn:E; cbn; try congruence;
    intros [= ->]; now apply basis_nd_err in E.
Qed.
Print Assumptions C42_fc_known.

Theorem C42_continuous_nd_integer : forall g a h k, fa_n a = Int k ->
  high_order_fc_layers g "continuous_nd" a h = Err ValueError.
Proof. intros g a h k E. cbn. unfold make_piecewise_nd. now rewrite E. Qed.
Print Assumptions C42_continuous_nd_integer.

(** Announced, yet never constructible. *)
Theorem C42_never_built_fc : forall g t a h,
  t = "polynomial_prod"%string \/ (In t nd_names /\ exists k, fa_n a = Int k) ->
  exists e, high_order_fc_layers g t a h = Err e /\ (e = AttributeError \/ e = TypeError).
Proof.
  intros g t a h [->|(H & k & E)].
  - cbn. unfold make_polynomial_prod, mraise. destruct (fa_n a); eauto.
  - exists TypeError. split; [|auto]. unfold nd_names in H. names; cbn; unfold make_polynomial_nd, new_PolynomialND; now rewrite E.
Qed.
Print Assumptions C42_never_built_fc.

(** The other names build a layer whenever n and segments are integers. *)
Theorem C42_built_fc : forall g t a h n s, In t fc_names -> fa_n a = Int n -> fa_segments a = Some (Int s) ->
  t <> "polynomial_prod"%string -> ~ In t nd_names -> t <> "continuous_nd"%string ->
  exists i h', high_order_fc_layers g t a h = Ok (i, h').
Proof.
  intros g t a h n s H En Es N1 N2 N3. unfold fc_names, nd_names in *. cbn in N2.
  names; try congruence; try (exfalso; apply N2; tauto); cbn;
    unfold SwitchLayer, replicate, high_order_fc_layers_basic, fc_layers_basic, make_piecewise, make_polynomial, make_fourier,
      make_product, LinearReluAdapter, Linear, mthen, alloc, mraise, mret; cbn; rewrite ?En, ?Es; cbn; eauto.
Qed.
Print Assumptions C42_built_fc.

(** What they build: the class named, with the arguments given (2 and 1 are the defaults of length and weight_magnitude). *)
Definition piecewise_names : list (string * pw_class) :=
  [("continuous"%string, PiecewisePolynomial); ("continuous_prod"%string, PiecewisePolynomialProd);
   ("discontinuous"%string, PiecewiseDiscontinuousPolynomial); ("discontinuous_prod"%string, PiecewiseDiscontinuousPolynomialProd)].
Definition or_else (o : option R) (d : R) : R := match o with Some r => r | None => d end.
Theorem C42_piecewise_class : forall g t c a h n s, In (t, c) piecewise_names -> fa_n a = Int n -> fa_segments a = Some (Int s) ->
  exists i h' draw, high_order_fc_layers g t a h = Ok (i, h') /\
    get h' i = OPiecewise (new_piecewise c n (fa_in a) (fa_out a) s (or_else (fa_length a) 2) (or_else (fa_weight_magnitude a) 1)
                             (fa_periodicity a) draw).
Proof.
  intros g t c a h n s H En Es. exists (length h). unfold piecewise_names in H. cbn in H.
  destruct H as [E|[E|[E|[E|[]]]]]; injection E as <- <-; cbn; unfold make_piecewise; rewrite En, Es; unfold alloc;
    eexists; exists (fun o i => g (length h) [o; i]); (split; [reflexivity|]);
    unfold get; rewrite app_nth2 by lia; rewrite Nat.sub_diag; destruct (fa_length a), (fa_weight_magnitude a); reflexivity.
Qed.
Print Assumptions C42_piecewise_class.

Theorem C42_function_class : forall g a h n, fa_n a = Int n ->
  (exists i h' draw, high_order_fc_layers g "polynomial" a h = Ok (i, h') /\
     get h' i = OFunc (Polynomial n (fa_in a) (fa_out a) (or_else (fa_length a) 2) (or_else (fa_weight_magnitude a) 1) (fa_periodicity a) draw)) /\
  (exists i h' draw, high_order_fc_layers g "fourier" a h = Ok (i, h') /\
     get h' i = OFunc (FourierSeries n (fa_in a) (fa_out a) (or_else (fa_length a) 2) (or_else (fa_weight_magnitude a) 1) (fa_periodicity a) draw)).
Proof.
  intros g a h n En. split; exists (length h); cbn; unfold make_polynomial, make_fourier; rewrite En; unfold alloc;
    eexists; exists (fun o i => g (length h) [o; i]); (split; [reflexivity|]);
    unfold get; rewrite app_nth2 by lia; rewrite Nat.sub_diag; destruct (fa_length a), (fa_weight_magnitude a); reflexivity.
Qed.
Print Assumptions C42_function_class.

(** ** Convolutions *)

Lemma reshape_noval {A} s (t : tensor A) : reshape s t <> Err ValueError.
Proof. unfold reshape. destruct Nat.eqb; congruence. Qed.

Lemma new_conv2d_noval k a u d : new_conv2d k a u d <> Err ValueError.
Proof.
  unfold new_conv2d. destruct k; cbn [rbind]; try congruence; unfold constant_random_initialization_conv2d;
    (destruct Nat.eqb; cbn [rbind]; [congruence|]);
    match goal with |- context [reshape ?s ?t] => pose proof (reshape_noval s t); destruct (reshape s t) end; cbn [rbind]; congruence.
Qed.

(** ValueError means an unknown name, and an unknown name means ValueError. *)
Theorem C42_conv : forall t a u draw, high_order_convolution_layers t a u draw = Err ValueError <-> ~ In t conv_names.
Proof.
  intros t a u draw. split.
  - intros E H. revert E. unfold conv_names in H.
    names; cbn; unfold class2d, class1d, rmap, new_conv1d; try (cbn; congruence);
      match goal with |- context [new_conv2d ?k ?a ?u ?d] => pose proof (new_conv2d_noval k a u d); destruct (new_conv2d k a u d) end;
      cbn; congruence.
  - intros H. unfold high_order_convolution_layers, convolutional_layers. unknown H. reflexivity.
Qed.
Print Assumptions C42_conv.

Theorem C42_never_built_conv : forall t a u draw, In t ("fourier1d"%string :: none_names) ->
  high_order_convolution_layers t a u draw = Err TypeError.
Proof. intros t a u draw H. unfold none_names in H. names; reflexivity. Qed.
Print Assumptions C42_never_built_conv.

Theorem C42_built_conv : forall t a u draw, In t conv_names -> ~ In t ("fourier1d"%string :: none_names) -> good_args a ->
  exists l, high_order_convolution_layers t a u draw = Ok l.
Proof.
  intros t a u draw H N G. unfold conv_names, none_names in *. cbn in N.
  names; try (exfalso; apply N; tauto); cbn; unfold class2d, class1d, rmap;
    try (destruct (new_conv2d_spec PiecewiseConv a u draw G) as (w & -> & _); cbn; eauto; fail);
    try (destruct (new_conv2d_spec PiecewiseDiscontinuousConv a u draw G) as (w & -> & _); cbn; eauto; fail);
    try (destruct (new_conv2d_spec PolynomialConv a u draw G) as (w & -> & _); cbn; eauto; fail);
    try (destruct (new_conv2d_spec FourierConv a u draw G) as (w & -> & _); cbn; eauto; fail);
    cbn; eauto.
Qed.
Print Assumptions C42_built_conv.

(** What the constructible names build: the family and the number of spatial dimensions in the name, with the sizes given. *)
Theorem C42_conv_class : forall t d k a u draw l, In (t, (d, k)) conv_class_names -> good_args a ->
  high_order_convolution_layers t a u draw = Ok l ->
  exists c, l = (if Nat.eqb d 2 then Layer2d c else Layer1d c) /\
    cv_kind c = k /\ cv_n c = a_n a /\ cv_segments c = a_segments a /\ cv_in c = a_in a /\ cv_out c = a_out a /\
    cv_kernel c = a_kernel a /\ cv_stride c = a_stride a /\ cv_padding c = a_padding a /\ cv_dilation c = a_dilation a /\
    cv_length c = a_length a /\ cv_rescale c = output_scale a /\ cv_periodicity c = conv_per k a.
Proof.
  intros t d k a u draw l H G E. destruct (conv_factory_class t d k H) as (D & F). rewrite F in E. clear F H.
  destruct (Nat.eqb d 2) eqn:Ed.
  - unfold class2d, rmap in E. destruct (new_conv2d_spec k a u draw G) as (w & Ew & _). rewrite Ew in E. cbn in E.
    injection E as <-. exists (conv_of k a w). split; [reflexivity|]. destruct k; repeat (split; [reflexivity|]); reflexivity.
  - destruct D as [->|(-> & NF)]; [discriminate|]. unfold class1d, rmap, new_conv1d in E.
    destruct k; try contradiction; cbn in E; injection E as <-; eexists; (split; [reflexivity|]);
      repeat (split; [reflexivity|]); reflexivity.
Qed.
Print Assumptions C42_conv_class.

Theorem C42_transpose : forall t a u,
  (t = "continuous2d"%string -> exists l, high_order_convolution_transpose_layers t a u = Ok l) /\
  (t <> "continuous2d"%string -> high_order_convolution_transpose_layers t a u = Err ValueError).
Proof.
  intros t a u. unfold high_order_convolution_transpose_layers. split.
  - intros ->. cbn. eauto.
  - intros N. destruct (String.eqb_spec t "continuous2d"); congruence.
Qed.
Print Assumptions C42_transpose.

(** A name one letter off is rejected, the right one accepted. *)
Example C42_case : forall a u draw, good_args a ->
  high_order_convolution_layers "Continuous2d" a u draw = Err ValueError /\
  exists l, high_order_convolution_layers "discontinuous1d" a u draw = Ok l.
Proof.
  intros a u draw G. split; [reflexivity|]. apply C42_built_conv; auto; cbn; intuition congruence.
Qed.
