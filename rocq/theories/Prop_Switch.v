(** * Switch and sum layers, parameters and ignored arguments: C44, C45, C59. *)
From Coq Require Import String Reals Lra ZArith List Lia Bool Arith.
From Verif Require Import Spec Tensor Utils LagrangePolynomial Basis PolynomialLayers Refine ProductLayer LagrangeND Rotation Layers Networks
  Observe ObserveNet SumFacts TensorFacts LayerFacts SegmentFacts LayerProofs RefineFacts HeapFacts NetFacts NetCopy NetTypes.
Import ListNotations.
Local Open Scope R_scope.
Local Open Scope nat_scope.

(** ** C44: ignored arguments *)

Lemma mthen_ext {A B} (m : M A) (k k' : A -> M B) h : (forall a h, k a h = k' a h) -> mthen m k h = mthen m k' h.
Proof. intros E. unfold mthen. destruct (m h) as [(a, h')|]; auto. Qed.
Lemma mthen_ext1 {A B} (m m' : M A) (k k' : A -> M B) h : m h = m' h -> (forall a h, k a h = k' a h) -> mthen m k h = mthen m' k' h.
Proof. intros E E'. unfold mthen. rewrite E. destruct (m' h) as [(a, h')|]; auto. Qed.

Lemma basic_ignores g t n i o s len mag per sc ro ini sc' ro' ini' h :
  high_order_fc_layers_basic g t (mkArgs n i o s len mag per sc ro ini) h = high_order_fc_layers_basic g t (mkArgs n i o s len mag per sc' ro' ini') h.
Proof.
  unfold high_order_fc_layers_basic, fc_layers_basic.
  repeat match goal with |- context [if ?c then _ else _] => destruct c end; reflexivity.
Qed.
Lemma replicate_ext n m m' : (forall h, m h = m' h) -> forall h, replicate n m h = replicate n m' h.
Proof.
  intros E. induction n as [|n IH]; intros h; [reflexivity|]. cbn. apply mthen_ext1; auto. intros a h'. now apply mthen_ext1.
Qed.
Lemma factory_ignores g t n i o s len mag per sc ro ini sc' ro' ini' h :
  high_order_fc_layers g t (mkArgs n i o s len mag per sc ro ini) h = high_order_fc_layers g t (mkArgs n i o s len mag per sc' ro' ini') h.
Proof.
  unfold high_order_fc_layers, SwitchLayer. cbn [fa_n fa_in fa_out fa_segments fa_scale].
  destruct (String.eqb t "switch_continuous"); [|destruct (String.eqb t "switch_discontinuous")].
  - apply mthen_ext1; [|reflexivity]. apply replicate_ext. intros h'. apply basic_ignores.
  - apply mthen_ext1; [|reflexivity]. apply replicate_ext. intros h'. apply basic_ignores.
  - apply basic_ignores.
Qed.

(** The same arguments with other values of scale, rescale_output and initialization. *)
Definition with_ignored (a : mlp_args) (sc : R) (ro : bool) (ini : string) : mlp_args :=
  mkMLP (ma_layer_type a) (ma_n a) (ma_in_width a) (ma_out_width a) (ma_hidden_layers a) (ma_hidden_width a) sc
    (ma_n_in a) (ma_n_out a) (ma_n_hidden a) ro (ma_periodicity a) (ma_non_linearity a) (ma_in_segments a)
    (ma_out_segments a) (ma_hidden_segments a) (ma_normalization a) (ma_resnet a) (ma_layer_type_in a) ini (ma_dropout a).

Lemma hidden_ignores g a sc ro ini dl n : forall i L h, mlp_hidden g (with_ignored a sc ro ini) dl n i L h = mlp_hidden g a dl n i L h.
Proof.
  induction n as [|n IH]; intros i L h; [reflexivity|]. cbn [mlp_hidden].
  apply mthen_ext1; [reflexivity|]. intros b h1. apply mthen_ext1; [apply factory_ignores|]. intros k h2.
  apply mthen_ext1; [reflexivity|]. intros k' h3. apply IH.
Qed.

(** Constructing a network with another scale, rescale_output or initialization gives, with the same random numbers,
    the same objects (or the same exception), for every layer type. *)
Theorem C44_ignored_arguments : forall g a sc ro ini h,
  HighOrderMLP g (with_ignored a sc ro ini) h = HighOrderMLP g a h.
Proof.
  intros g a sc ro ini h. unfold HighOrderMLP.
  change (ma_dropout (with_ignored a sc ro ini)) with (ma_dropout a).
  destruct (Rlt_dec (ma_dropout a) 0); [reflexivity|]. destruct (Rlt_dec 1 (ma_dropout a)); [reflexivity|].
  apply mthen_ext1; [reflexivity|]. intros dl h0. apply mthen_ext1; [apply factory_ignores|]. intros k1 h1.
  apply mthen_ext1; [apply hidden_ignores|]. intros ls h2. apply mthen_ext1; [reflexivity|]. intros b h3.
  apply mthen_ext1; [apply factory_ignores|]. intros k2 h4. reflexivity.
Qed.
Print Assumptions C44_ignored_arguments.

(** Unlike these, e.g. the number of segments does matter. *)
Example C44_case :
  let a s := mkMLP "continuous" (Int 3) 2 5 0 7 2 None None None false None None
             (Some (Int s)) (Some (Int 2)) (Some (Int 3)) None true None "constant_random" 0 in
  HighOrderMLP (fun k _ => INR k) (with_ignored (a 1) 7 true "uniform") [] = HighOrderMLP (fun k _ => INR k) (a 1) [] /\
  HighOrderMLP (fun k _ => INR k) (a 1) [] <> HighOrderMLP (fun k _ => INR k) (a 2) [].
Proof.
  cbv zeta. split; [apply C44_ignored_arguments|]. unfold HighOrderMLP. cbn [ma_dropout].
  destruct (Rlt_dec 0 0) as [C|_]; [lra|]. destruct (Rlt_dec 1 0) as [C|_]; [lra|]. intros E.
  unfold mthen, alloc, mlp_layer, dropout_list in E. cbn in E. injection E. discriminate.
Qed.

(** Arguments that are not given: None, 0 and the empty list and string. *)
Definition falsy (v : option ints) : Prop := v = None \/ v = Some (Int 0) \/ v = Some (Ints []).
Definition stands_for (n : ints) (v v' : option ints) : Prop := v' = v \/ (falsy v /\ v' = Some n).
Definition with_orders (a : mlp_args) (ni nh no : option ints) (type_in : option string) : mlp_args :=
  mkMLP (ma_layer_type a) (ma_n a) (ma_in_width a) (ma_out_width a) (ma_hidden_layers a) (ma_hidden_width a) (ma_scale a)
    ni no nh (ma_rescale_output a) (ma_periodicity a) (ma_non_linearity a) (ma_in_segments a)
    (ma_out_segments a) (ma_hidden_segments a) (ma_normalization a) (ma_resnet a) type_in (ma_initialization a) (ma_dropout a).
Lemma or_ints_stands n v v' : stands_for n v v' -> or_ints v' n = or_ints v n.
Proof. intros [->|(F & ->)]; [reflexivity|]. destruct F as [->|[->| ->]]; cbn; now destruct n as [[|]|[|]]. Qed.
Lemma hidden_orders g a ni nh no ti dl n : or_ints nh (ma_n a) = or_ints (ma_n_hidden a) (ma_n a) ->
  forall i L h, mlp_hidden g (with_orders a ni nh no ti) dl n i L h = mlp_hidden g a dl n i L h.
Proof.
  intros E. induction n as [|n IH]; intros i L h; [reflexivity|]. cbn [mlp_hidden].
  apply mthen_ext1; [reflexivity|]. intros b h1. apply mthen_ext1.
  - cbn [with_orders ma_n_hidden ma_n ma_layer_type ma_hidden_width ma_hidden_segments]. now rewrite E.
  - intros k h2. apply mthen_ext1; [reflexivity|]. intros k' h3. apply IH.
Qed.
(** An order that is not given is [n], a type of input layer that is not given is [layer_type]: writing them out gives the
    same network. *)
Theorem C44_orders_not_given : forall g a ni nh no type_in h,
  stands_for (ma_n a) (ma_n_in a) ni -> stands_for (ma_n a) (ma_n_hidden a) nh -> stands_for (ma_n a) (ma_n_out a) no ->
  (type_in = ma_layer_type_in a \/
   ((ma_layer_type_in a = None \/ ma_layer_type_in a = Some ""%string) /\ type_in = Some (ma_layer_type a))) ->
  HighOrderMLP g (with_orders a ni nh no type_in) h = HighOrderMLP g a h.
Proof.
  intros g a ni nh no ti h Hi Hh Ho Ht. unfold HighOrderMLP.
  change (ma_dropout (with_orders a ni nh no ti)) with (ma_dropout a).
  destruct (Rlt_dec (ma_dropout a) 0); [reflexivity|]. destruct (Rlt_dec 1 (ma_dropout a)); [reflexivity|].
  apply mthen_ext1; [reflexivity|]. intros dl h0. apply mthen_ext1.
  { cbn [with_orders ma_n_in ma_n ma_layer_type_in ma_layer_type ma_in_width ma_hidden_width ma_in_segments]. rewrite (or_ints_stands _ _ _ Hi).
    assert (or_string ti (ma_layer_type a) = or_string (ma_layer_type_in a) (ma_layer_type a)) as ->; [|reflexivity].
    destruct Ht as [->|([->| ->] & ->)]; [reflexivity|..]; cbn; now destruct (ma_layer_type a). }
  intros k1 h1. apply mthen_ext1; [apply hidden_orders, or_ints_stands, Hh|]. intros ls h2. apply mthen_ext1; [reflexivity|]. intros b h3.
  apply mthen_ext1; [|reflexivity].
  cbn [with_orders ma_n_out ma_n ma_layer_type ma_out_width ma_hidden_width ma_out_segments]. now rewrite (or_ints_stands _ _ _ Ho).
Qed.
Print Assumptions C44_orders_not_given.

(** A given order does matter. *)
Example C44_orders_case :
  let a ni := mkMLP "continuous" (Int 3) 2 5 0 7 2 ni None None false None None
             (Some (Int 1)) (Some (Int 2)) (Some (Int 3)) None true None "constant_random" 0 in
  HighOrderMLP (fun k _ => INR k) (a (Some (Int 0))) [] = HighOrderMLP (fun k _ => INR k) (a (Some (Int 3))) [] /\
  HighOrderMLP (fun k _ => INR k) (a (Some (Int 3))) [] <> HighOrderMLP (fun k _ => INR k) (a (Some (Int 2))) [].
Proof.
  cbv zeta. split.
  - symmetry. apply (C44_orders_not_given (fun k _ => INR k) (mkMLP "continuous" (Int 3) 2 5 0 7 2 (Some (Int 0)) None None false None None
             (Some (Int 1)) (Some (Int 2)) (Some (Int 3)) None true None "constant_random" 0) (Some (Int 3)) None None None); unfold stands_for, falsy; auto.
  - unfold HighOrderMLP. cbn [ma_dropout]. destruct (Rlt_dec 0 0) as [C|_]; [lra|]. destruct (Rlt_dec 1 0) as [C|_]; [lra|]. intros E.
    unfold mthen, alloc, mlp_layer, dropout_list in E. cbn in E. injection E. discriminate.
Qed.

(** ** C45: switch layers *)

Lemma bc_list_valid s : forall ix, valid s ix -> bc_list s ix = ix.
Proof.
  induction s as [|d s IH]; intros [|i ix] H; cbn in *; try tauto. destruct H as (Hi & H). rewrite IH by auto. f_equal.
  now apply TensorFacts.bc_id.
Qed.
Lemma bindex_valid s ix : valid s ix -> bindex s ix = ix.
Proof. intros H. unfold bindex. rewrite (valid_length _ _ H), Nat.sub_diag. now apply bc_list_valid. Qed.
Lemma bshape_same s : bshape s s = Some s.
Proof.
  unfold bshape. assert (E : forall l, bshape_rev l l = Some l).
  { induction l as [|d l IH]; [reflexivity|]. cbn. now rewrite bsize_refl, IH. }
  now rewrite E, rev_involutive.
Qed.
Lemma broadcast2_shape f a b s : shape a = s -> shape b = s -> exists y, broadcast2 f a b = Ok y /\ shape y = s /\
  forall ix, valid s ix -> at_ y ix = f (at_ a ix) (at_ b ix).
Proof.
  intros Ha Hb. unfold broadcast2. rewrite Ha, Hb, bshape_same. eexists. split; [reflexivity|]. split; [reflexivity|].
  intros ix V. cbn. now rewrite !bindex_valid.
Qed.
Lemma times_all_shape s ys : forall f, shape f = s -> Forall (fun y => shape y = s) ys ->
  exists z, times_all f ys = Ok z /\ shape z = s /\ forall ix, valid s ix ->
    at_ z ix = (at_ f ix * rprod (length ys) (fun i => at_ (nth i ys f) ix))%R.
Proof.
  induction ys as [|y ys IH]; intros f Hf F.
  - exists f. split; [reflexivity|]. split; auto. intros ix _. cbn. ring.
  - inversion F as [|? ? Hy F']; subst. cbn [times_all].
    assert (T : exists z, times_ f y = Ok z /\ shape z = shape f /\ forall ix, valid (shape f) ix -> at_ z ix = (at_ f ix * at_ y ix)%R).
    { unfold times_. rewrite Hy, bshape_same. destruct (list_eq_dec Nat.eq_dec (shape f) (shape f)) as [_|C]; [|contradiction].
      now apply broadcast2_shape. }
    destruct T as (z & Ez & Sz & Vz). rewrite Ez. cbn [rbind]. destruct (IH z Sz F') as (z' & E' & S' & V').
    exists z'. split; auto. split; [congruence|]. intros ix V. rewrite V' by exact V. rewrite Vz by exact V.
    change (length (y :: ys)) with (S (length ys)). rewrite rprod_S_l. cbn [nth]. rewrite Rmult_assoc. f_equal. f_equal. apply rprod_ext. intros i Hi.
    f_equal. apply nth_indep. exact Hi.
Qed.
Lemma all_outputs_nth c ls x ys : length ys = length ls -> (forall i, i < length ls -> c (nth i ls 0) x = Ok (nth i ys x)) ->
  all_outputs c ls x = Ok ys.
Proof.
  revert ys. induction ls as [|l ls IH]; intros ys L H; destruct ys as [|y ys]; try discriminate; [reflexivity|]. cbn.
  pose proof (H 0 ltac:(cbn; lia)) as H0. cbn in H0. rewrite H0. cbn. rewrite (IH ys); [reflexivity|now injection L|].
  intros i Hi. apply (H (S i)). cbn. lia.
Qed.

(** A switch layer multiplies the outputs of its branches elementwise (any number of branches, inputs and outputs of
    any shape), and normalises the product. *)
Theorem C45_switch_is_product : forall h k I O ls nm x ys s, wf_heap h -> k < length h ->
  get h k = OSwitch I O ls nm -> ls <> [] -> length ys = length ls ->
  (forall i, i < length ls -> call h (nth i ls 0) x = Ok (nth i ys x) /\ shape (nth i ys x) = s) ->
  exists z, shape z = s /\ (forall ix, valid s ix -> at_ z ix = rprod (length ls) (fun i => at_ (nth i ys x) ix)) /\
    call h k x = match nm with Some f => call h f z | None => Ok z end.
Proof.
  intros h k I O ls nm x ys s W Hk E Hne L H. rewrite call_unfold, E by auto. cbn [obj_forward].
  rewrite (all_outputs_nth _ _ _ ys L) by (intros i Hi; apply H, Hi). cbn [rbind].
  destruct ys as [|y ys]; [destruct ls; [now destruct Hne|discriminate]|]. cbn [product_outputs].
  assert (Hy : shape y = s) by (apply (H 0); rewrite <- L; cbn; lia).
  destruct (times_all_shape s ys y Hy) as (z & Ez & Sz & Vz).
  { apply Forall_forall. intros y' Hin. destruct (In_nth _ _ x Hin) as (i & Hi & <-). apply (H (S i)). rewrite <- L. cbn. lia. }
  exists z. split; auto. split; [|now rewrite Ez].
  intros ix V. rewrite Vz, <- L by auto. change (length (y :: ys)) with (S (length ys)). rewrite rprod_S_l. cbn [nth]. f_equal. apply rprod_ext. intros i Hi.
  f_equal. now apply nth_indep.
Qed.
Print Assumptions C45_switch_is_product.

(** A SumLayer of two layers adds their outputs; of any other number of layers it raises. *)
Theorem C59_sum_layer : forall h k ls x, wf_heap h -> k < length h -> get h k = OSum ls ->
  (forall a b ya yb s, ls = [a; b] -> call h a x = Ok ya -> call h b x = Ok yb -> shape ya = s -> shape yb = s ->
     exists y, call h k x = Ok y /\ shape y = s /\ forall ix, valid s ix -> at_ y ix = (at_ ya ix + at_ yb ix)%R) /\
  (length ls <> 2 -> exists e, call h k x = Err e).
Proof.
  intros h k ls x W Hk E. rewrite call_unfold, E by auto. cbn [obj_forward]. split.
  - intros a b ya yb s -> Ea Eb Sa Sb. cbn. rewrite Ea, Eb. cbn. now apply broadcast2_shape.
  - intros L. assert (Q : forall ls ys, all_outputs (call h) ls x = Ok ys -> length ys = length ls).
    { clear. induction ls as [|l ls IH]; intros ys E; cbn in E; [injection E as <-; reflexivity|].
      destruct (call h l x); [|discriminate]. cbn in E. destruct (all_outputs (call h) ls x) eqn:E'; [|discriminate]. cbn in E.
      injection E as <-. cbn. f_equal. now apply IH. }
    destruct (all_outputs (call h) ls x) as [ys|e] eqn:E'; [|exists e; reflexivity]. cbn. apply Q in E'.
    exists TypeError. destruct ys as [|? [|? [|? ?]]]; cbn in *; try reflexivity. congruence.
Qed.
Print Assumptions C59_sum_layer.

(** ** Parameters *)

(** Object [j] is [i] or a registered submodule of it, at any depth. *)
Inductive within (h : heap) : nat -> nat -> Prop :=
| within_refl i : within h i i
| within_child i c j : In c (children (get h i)) -> within h c j -> within h i j.

Lemma walk_within h : wf_heap h -> forall i, i < length h -> forall memo j, In j (walk h i memo) -> In j memo \/ within h i j.
Proof.
  intros W i. induction i as [i IH] using lt_wf_ind. intros Hi memo j Hj. rewrite walk_unfold in Hj by auto.
  destruct (mem i memo); [now left|].
  assert (Q : forall cs m, (forall c, In c cs -> In c (children (get h i))) ->
            In j (fold_left (fun m c => walk h c m) cs m) -> In j m \/ within h i j).
  { induction cs as [|c cs IHc]; intros m Hcs H; [now left|]. cbn in H. apply IHc in H; [|intros c' Hc'; apply Hcs; now right].
    destruct H as [H|H]; [|now right].
    assert (Hc : c < i) by (apply (W i Hi), children_refs, Hcs; now left).
    apply (IH c) in H; [|exact Hc|lia]. destruct H as [H|H]; [now left|]. right. econstructor; [apply Hcs; now left|exact H]. }
  apply Q in Hj; auto. destruct Hj as [Hj|Hj]; [|now right]. apply in_app_or in Hj. destruct Hj as [Hj|[<-|[]]]; [now left|]. right. constructor.
Qed.

(** Every parameter of a module is owned by a registered submodule. *)
Lemma parameters_within h i j p : wf_heap h -> i < length h -> In (j, p) (parameters h i) -> within h i j /\ In p (own_parameters (get h j)).
Proof.
  intros W Hi H. unfold parameters in H. apply in_flat_map in H. destruct H as (k & Hk & H). apply in_map_iff in H.
  destruct H as (q & E & Hq). injection E as -> ->. split; auto.
  change (modules h i) with (walk h i []) in Hk. apply walk_within in Hk; auto. destruct Hk as [[]|]; auto.
Qed.

Lemma no_parameters h i : wf_heap h -> i < length h -> (forall j, within h i j -> own_parameters (get h j) = []) -> parameters h i = [].
Proof.
  intros W Hi H. destruct (parameters h i) as [|(j, p) l] eqn:E; [reflexivity|]. exfalso.
  destruct (parameters_within h i j p W Hi) as (Hw & Hp); [rewrite E; now left|]. rewrite H in Hp by auto. destruct Hp.
Qed.

(** The parameters of a switch layer are those of its normalisation, whatever its branches; a sum layer has none. *)
Theorem C45_switch_parameters : forall h k I O ls, wf_heap h -> k < length h -> get h k = OSwitch I O ls None -> parameters h k = [].
Proof.
  intros h k I O ls W Hk E. apply no_parameters; auto. intros j Hj.
  inversion Hj as [|? c ? Hc]; subst; [now rewrite E|]. rewrite E in Hc. destruct Hc.
Qed.
Print Assumptions C45_switch_parameters.
Theorem C45_sum_parameters : forall h k ls, wf_heap h -> k < length h -> get h k = OSum ls -> parameters h k = [].
Proof.
  intros h k ls W Hk E. apply no_parameters; auto. intros j Hj.
  inversion Hj as [|? c ? Hc]; subst; [now rewrite E|]. rewrite E in Hc. destruct Hc.
Qed.
Print Assumptions C45_sum_parameters.

(** ** Networks that train little *)

(** Constructors only append objects and keep references backwards. *)
Definition grows {A} (m : M A) : Prop := forall h a h', m h = Ok (a, h') -> exists e, h' = h ++ e.
Lemma grows_then {A B} (m : M A) (k : A -> M B) : grows m -> (forall a, grows (k a)) -> grows (mthen m k).
Proof.
  intros G G' h b h' E. unfold mthen in E. destruct (m h) as [(a, h1)|] eqn:E1; [|discriminate].
  destruct (G _ _ _ E1) as (e1 & ->). destruct (G' _ _ _ _ E) as (e2 & ->). exists (e1 ++ e2). now rewrite app_assoc.
Qed.
Lemma grows_ret {A} (a : A) : grows (mret a).
Proof. intros h b h' E. injection E as _ <-. exists []. now rewrite app_nil_r. Qed.
Lemma grows_raise {A} e : grows (@mraise A e).
Proof. intros h b h' E. discriminate. Qed.
Lemma grows_alloc o : grows (alloc o).
Proof. intros h b h' E. injection E as _ <-. eauto. Qed.
Lemma grows_replicate n m : grows m -> grows (replicate n m).
Proof. intros G. induction n; cbn; [apply grows_ret|]. apply grows_then; auto. intros l. apply grows_then; auto. intros ls. apply grows_ret. Qed.
Lemma grows_basic g t a : grows (high_order_fc_layers_basic g t a).
Proof.
  unfold high_order_fc_layers_basic, fc_layers_basic.
  repeat match goal with |- context [if ?c then _ else _] => destruct c end;
    try apply grows_alloc; try apply grows_raise;
    try (unfold make_piecewise, make_polynomial, make_fourier, make_polynomial_prod; destruct (fa_n a); try destruct (fa_segments a) as [[]|];
         try apply grows_alloc; apply grows_raise).
  - apply grows_then; [apply grows_alloc|]. intros f. apply grows_alloc.
  - intros h b h' E. unfold make_polynomial_nd in E. destruct new_PolynomialND; [|discriminate]. now apply grows_alloc in E.
  - intros h b h' E. unfold make_polynomial_nd in E. destruct new_PolynomialND; [|discriminate]. now apply grows_alloc in E.
  - intros h b h' E. unfold make_polynomial_nd in E. destruct new_PolynomialND; [|discriminate]. now apply grows_alloc in E.
  - intros h b h' E. unfold make_polynomial_nd in E. destruct new_PolynomialND; [|discriminate]. now apply grows_alloc in E.
  - intros h b h' E. unfold make_piecewise_nd in E. destruct (fa_n a); [discriminate|]. destruct (fa_segments a); [|discriminate].
    destruct new_PiecewiseND; [|discriminate]. now apply grows_alloc in E.
Qed.
Lemma grows_factory g t a : grows (high_order_fc_layers g t a).
Proof.
  unfold high_order_fc_layers, SwitchLayer. destruct (String.eqb t "switch_continuous"); [|destruct (String.eqb t "switch_discontinuous")].
  - apply grows_then; [apply grows_replicate, grows_basic|]. intros. apply grows_alloc.
  - apply grows_then; [apply grows_replicate, grows_basic|]. intros. apply grows_alloc.
  - apply grows_basic.
Qed.
Lemma grows_between nm nl : grows (between nm nl).
Proof.
  unfold between. apply grows_then; [|intros; apply grows_ret]. destruct nm as [(f, ps)|]; [|apply grows_ret].
  apply grows_then; [apply grows_alloc|]. intros. apply grows_ret.
Qed.

Lemma grows_hidden g a dl n : forall i l, grows (mlp_hidden g a dl n i l).
Proof.
  induction n as [|n IH]; intros i l; [apply grows_ret|]. cbn [mlp_hidden]. apply grows_then; [apply grows_between|]. intros b.
  apply grows_then; [apply grows_factory|]. intros k. apply grows_then; [|intros k'; apply IH].
  destruct (ma_resnet a && Nat.ltb 0 i)%bool; [apply grows_alloc|apply grows_ret].
Qed.

Lemma wf_prefix h e : wf_heap (h ++ e) -> wf_heap h.
Proof. intros W i Hi j Hj. apply (W i); [rewrite app_length; lia|]. now rewrite get_app_l. Qed.
Lemma within_app h e k j : within h k j -> within (h ++ e) k j.
Proof.
  induction 1 as [|i c j Hc H IH]; [constructor|]. econstructor; [|exact IH].
  destruct (Nat.lt_ge_cases i (length h)) as [Hi|Hi]; [now rewrite get_app_l|]. rewrite get_out in Hc by auto. destruct Hc.
Qed.
Lemma within_app_inv h e k j : wf_heap h -> k < length h -> within (h ++ e) k j -> within h k j /\ j < length h.
Proof.
  intros W Hk H. induction H as [|i c j Hc H IH]; [split; [constructor|auto]|]. rewrite get_app_l in Hc by auto.
  pose proof (W i Hk c (children_refs _ c Hc)). destruct IH as (IH & Hj); [lia|]. split; auto. econstructor; eauto.
Qed.

(** All parameters reachable from [k] are reachable from [S]. *)
Definition quiet (S : list nat) (h : heap) (k : nat) : Prop :=
  k < length h /\ forall j, within h k j -> own_parameters (get h j) = [] \/ exists s, In s S /\ within h s j.
Lemma quiet_app S h e k : wf_heap h -> quiet S h k -> quiet S (h ++ e) k.
Proof.
  intros W (Hk & Q). split; [rewrite app_length; lia|]. intros j Hj. apply within_app_inv in Hj; auto. destruct Hj as (Hj & Lj).
  rewrite get_app_l by auto. destruct (Q j Hj) as [E|(s & Hs & Hw)]; [now left|]. right. exists s. split; auto. now apply within_app.
Qed.
Lemma quiet_incl S S' h k : incl S S' -> quiet S h k -> quiet S' h k.
Proof. intros I (Hk & Q). split; auto. intros j Hj. destruct (Q j Hj) as [E|(s & Hs & Hw)]; [now left|]. right. exists s. auto. Qed.
Lemma quiet_self S h k : In k S -> k < length h -> quiet S h k.
Proof. intros I H. split; auto. intros j Hj. right. eauto. Qed.
Lemma quiet_leaf S h k : k < length h -> children (get h k) = [] -> own_parameters (get h k) = [] -> quiet S h k.
Proof. intros H C P. split; auto. intros j Hj. inversion Hj as [|? c ? Hc]; subst; [now left|]. rewrite C in Hc. destruct Hc. Qed.
Lemma quiet_parent S h k : k < length h -> own_parameters (get h k) = [] -> (forall c, In c (children (get h k)) -> quiet S h c) -> quiet S h k.
Proof.
  intros H P C. split; auto. intros j Hj. inversion Hj as [|? c ? Hc Hw]; subst; [now left|]. now apply (proj2 (C c Hc)).
Qed.

Definition is_switch (t : string) : Prop := In t ["switch_continuous"; "switch_discontinuous"]%string.

Lemma switch_quiet g t args h k h' : is_switch t -> high_order_fc_layers g t args h = Ok (k, h') -> forall S, quiet S h' k.
Proof.
  intros T E S. assert (exists b, SwitchLayer (high_order_fc_layers_basic g) b 2 None args h = Ok (k, h')) as (b & E').
  { destruct T as [<-|[<-|[]]]; [exists "continuous"%string|exists "discontinuous"%string]; exact E. }
  clear T E. unfold SwitchLayer, mthen in E'. destruct replicate as [(ls, h1)|]; [|discriminate]. injection E' as <- <-.
  apply quiet_leaf; [rewrite app_length; cbn; lia|now rewrite get_last..].
Qed.
Lemma factory_lt g t args h k h' : high_order_fc_layers g t args h = Ok (k, h') -> k < length h'.
Proof.
  assert (A : forall o h k h', alloc o h = Ok (k, h') -> k < length h').
  { intros o h0 k0 h0' E. injection E as <- <-. rewrite app_length. cbn. lia. }
  assert (B : forall t args h k h', high_order_fc_layers_basic g t args h = Ok (k, h') -> k < length h').
  { clear -A. intros t args h k h' E. unfold high_order_fc_layers_basic, fc_layers_basic in E.
    repeat match type of E with context [if ?c then _ else _] => destruct c end; try discriminate;
      try (now apply A in E);
      try (unfold make_piecewise, make_polynomial, make_fourier, make_polynomial_prod, make_polynomial_nd, make_piecewise_nd in E;
           repeat match type of E with context [match ?m with _ => _ end] => destruct m end; try discriminate; now apply A in E). }
  intros E. unfold high_order_fc_layers, SwitchLayer in E.
  destruct (String.eqb t "switch_continuous"); [|destruct (String.eqb t "switch_discontinuous")].
  - unfold mthen in E. destruct replicate as [(ls, h1)|]; [|discriminate]. now apply A in E.
  - unfold mthen in E. destruct replicate as [(ls, h1)|]; [|discriminate]. now apply A in E.
  - now apply B in E.
Qed.

Section Quiet.
Variables (g : rng) (a : mlp_args) (dl : nat) (sw : bool).
Hypothesis Hsw : sw = true -> is_switch (ma_layer_type a).
Hypothesis Hres : sw = false -> ma_resnet a = true.
Hypothesis Hnorm : forall f ps, ma_normalization a = Some (f, ps) -> ps = [].

Definition quiet_act (h : heap) : Prop := quiet [] h dl /\ forall k, ma_non_linearity a = Some k -> quiet [] h k.
Lemma quiet_act_app h e : wf_heap h -> quiet_act h -> quiet_act (h ++ e).
Proof. intros W (D & N). split; [now apply quiet_app|]. intros k Hk. apply quiet_app; auto. Qed.

Lemma between_quiet h b h' : between (ma_normalization a) (ma_non_linearity a) h = Ok (b, h') -> wf_heap h' -> quiet_act h ->
  exists e, h' = h ++ e /\ quiet_act h' /\ forall S k, In k (b ++ dropout_list a dl) -> quiet S h' k.
Proof.
  intros E W Q. destruct (grows_between _ _ _ _ _ E) as (e & ->). exists e. split; auto. assert (W0 := wf_prefix _ _ W).
  assert (Q' := quiet_act_app h e W0 Q). split; auto. intros S k Hk.
  apply (quiet_incl []); [intros ? []|]. apply in_app_or in Hk. destruct Hk as [Hk|Hk].
  - unfold between in E. destruct (ma_normalization a) as [(f, ps)|] eqn:En.
    + unfold mthen, alloc, mret in E. injection E as <- E. rewrite <- E. destruct Hk as [<-|Hk].
      * apply quiet_leaf; [rewrite app_length; cbn; lia|now rewrite get_last|]. rewrite get_last. cbn. eapply Hnorm; reflexivity.
      * destruct (ma_non_linearity a) as [k'|] eqn:Ek; [|destruct Hk]. destruct Hk as [<-|[]]. rewrite E. now apply (proj2 Q').
    + unfold mthen, mret in E. injection E as <- E. rewrite <- E. destruct (ma_non_linearity a) as [k'|] eqn:Ek; [|destruct Hk].
      destruct Hk as [<-|[]]. now apply (proj2 Q).
  - unfold dropout_list in Hk. destruct Rlt_dec; [|destruct Hk]. destruct Hk as [<-|[]]. apply (proj1 Q').
Qed.

Lemma hidden_quiet n : forall i L S h L' h', mlp_hidden g a dl n i L h = Ok (L', h') -> wf_heap h' -> quiet_act h ->
  (forall k, In k L -> quiet S h k) -> incl S L ->
  exists S' e, h' = h ++ e /\ quiet_act h' /\ (forall k, In k L' -> quiet S' h' k) /\ incl S S' /\ incl S' L' /\ incl L L' /\
    (sw = true -> S' = S) /\ length S' <= length S + (if Nat.eqb i 0 then 1 else 0).
Proof.
  induction n as [|n IH]; intros i L S h L' h' E W Q QL IS.
  - injection E as <- <-. exists S, []. rewrite app_nil_r. do 7 (split; [auto using incl_refl|]). lia.
  - cbn [mlp_hidden] in E. unfold mthen at 1 in E.
    destruct (between _ _ h) as [(b, h1)|] eqn:E1; [|discriminate]. unfold mthen at 1 in E.
    destruct (mlp_layer _ _ _ _ _ _ _ h1) as [(k, h2)|] eqn:E2; [|discriminate]. unfold mthen at 1 in E.
    destruct ((if (ma_resnet a && Nat.ltb 0 i)%bool then alloc _ else mret _) h2) as [(k', h3)|] eqn:E3; [|discriminate].
    assert (G3 : exists e3, h3 = h2 ++ e3).
    { destruct (ma_resnet a && Nat.ltb 0 i)%bool in E3; [eapply grows_alloc; exact E3|eapply grows_ret; exact E3]. }
    destruct G3 as (e3 & G3). destruct (grows_factory _ _ _ _ _ _ E2) as (e2 & G2). destruct (grows_between _ _ _ _ _ E1) as (e1 & G1).
    assert (GH : exists e4, h' = h3 ++ e4) by (eapply grows_hidden; exact E).
    destruct GH as (e4 & G4).
    assert (W3 : wf_heap h3) by (rewrite G4 in W; now apply wf_prefix in W).
    assert (W2 : wf_heap h2) by (rewrite G3 in W3; now apply wf_prefix in W3).
    assert (W1 : wf_heap h1) by (rewrite G2 in W2; now apply wf_prefix in W2).
    assert (W0 : wf_heap h) by (rewrite G1 in W1; now apply wf_prefix in W1).
    destruct (between_quiet _ _ _ E1 W1 Q) as (_ & _ & Q1 & B1).
    assert (Q3 : quiet_act h3) by (rewrite G3, G2; apply quiet_act_app; [rewrite <- G2; auto|]; now apply quiet_act_app).
    pose proof (factory_lt _ _ _ _ _ _ E2) as Lk.
    (* the new element *)
    assert (K : exists S1, incl S S1 /\ (sw = true -> S1 = S) /\ length S1 <= length S + (if Nat.eqb i 0 then 1 else 0) /\
              quiet S1 h3 k' /\ incl S1 (k' :: S)).
    { destruct (ma_resnet a && Nat.ltb 0 i)%bool eqn:Er in E3.
      - exists S. split; [apply incl_refl|]. split; auto. split; [lia|]. split; [|apply incl_tl, incl_refl]. injection E3 as <- <-.
        apply quiet_leaf; [rewrite app_length; cbn; lia|now rewrite get_last..].
      - injection E3 as <- <-. destruct sw eqn:Es.
        + exists S. split; [apply incl_refl|]. split; auto. split; [lia|]. split; [|apply incl_tl, incl_refl].
          eapply switch_quiet; [now apply Hsw|exact E2].
        + exists (k :: S). split; [apply incl_tl, incl_refl|]. split; [discriminate|]. split; [|split; [now apply quiet_self; [left|]|apply incl_refl]].
          rewrite (Hres eq_refl) in Er. destruct i; [cbn; lia|discriminate]. }
    destruct K as (S1 & I1 & Sw1 & Ln1 & Qk & Ik).
    destruct (IH _ _ S1 _ _ _ E W Q3) as (S' & e & Ge & Q' & QL' & I' & IL' & ILL & Sw' & Ln').
    { intros j Hj. apply in_app_or in Hj. destruct Hj as [Hj|[<-|[]]]; [|exact Qk]. apply (quiet_incl S); auto.
      rewrite G3. apply quiet_app; auto. rewrite G2. apply quiet_app; auto. apply in_app_or in Hj.
      destruct Hj as [Hj|Hj]; [rewrite G1; apply quiet_app; auto|now apply B1]. }
    { intros j Hj. apply Ik in Hj. destruct Hj as [<-|Hj]; [apply in_or_app; right; now left|]. apply in_or_app. left. apply in_or_app. left. now apply IS. }
    exists S', (e1 ++ e2 ++ e3 ++ e4). split; [rewrite G4, G3, G2, G1; now rewrite !app_assoc|]. split; auto. split; auto.
    split; [eapply incl_tran; eauto|]. split; auto.
    split; [intros j Hj; apply ILL, in_or_app; left; apply in_or_app; now left|].
    split; [intros C; rewrite (Sw' C); auto|]. cbn in Ln'. lia.
Qed.
End Quiet.

Lemma mlp_quiet g a sw h net h' : (sw = true -> is_switch (ma_layer_type a) /\ is_switch (or_string (ma_layer_type_in a) (ma_layer_type a))) ->
  (sw = false -> ma_resnet a = true) ->
  (forall f ps, ma_normalization a = Some (f, ps) -> ps = []) ->
  (forall k, ma_non_linearity a = Some k -> k < length h /\ exists f, get h k = OModule f []) ->
  HighOrderMLP g a h = Ok (net, h') -> wf_heap h' ->
  exists m ls S, model_of h' net = Ok m /\ get h' m = OSequential ls /\ incl S ls /\ quiet S h' net /\ (sw = true -> S = []) /\ length S <= 3.
Proof.
  intros Hsw Hres Hn Ha E W. unfold HighOrderMLP in E.
  destruct (Rlt_dec (ma_dropout a) 0); [discriminate|]. destruct (Rlt_dec 1 (ma_dropout a)); [discriminate|].
  unfold mthen at 1, alloc at 1 in E. set (h0 := h ++ [OModule (fun x => Ok x) []]) in *. set (dl := length h) in *.
  unfold mthen at 1 in E. destruct (mlp_layer _ _ _ _ _ _ _ h0) as [(k1, h1)|] eqn:E1; [|discriminate]. unfold mthen at 1 in E.
  destruct (mlp_hidden _ _ _ _ _ _ h1) as [(ls, h2)|] eqn:E2; [|discriminate]. unfold mthen at 1 in E.
  destruct (between _ _ h2) as [(b, h3)|] eqn:E3; [|discriminate]. unfold mthen at 1 in E.
  destruct (mlp_layer _ _ _ _ _ _ _ h3) as [(k2, h4)|] eqn:E4; [|discriminate].
  unfold mthen, alloc in E. injection E as <- E.
  set (l := ls ++ b ++ dropout_list a dl ++ [k2]) in *. set (h5 := h4 ++ [OSequential l]) in *.
  destruct (grows_factory _ _ _ _ _ _ E1) as (e1 & G1). destruct (grows_between _ _ _ _ _ E3) as (e3 & G3).
  destruct (grows_factory _ _ _ _ _ _ E4) as (e4 & G4).
  assert (W5 : wf_heap h5) by (rewrite <- E in W; now apply wf_prefix in W).
  assert (W4 : wf_heap h4) by (now apply wf_prefix in W5).
  assert (W3 : wf_heap h3) by (rewrite G4 in W4; now apply wf_prefix in W4).
  assert (W2 : wf_heap h2) by (rewrite G3 in W3; now apply wf_prefix in W3).
  pose proof (factory_lt _ _ _ _ _ _ E1) as L1. pose proof (factory_lt _ _ _ _ _ _ E4) as L4.
  assert (Q0 : quiet_act a dl h0).
  { split; [apply quiet_leaf; [unfold h0, dl; rewrite app_length; cbn; lia|unfold h0, dl; now rewrite get_last..]|].
    intros k Hk. destruct (Ha k Hk) as (Lk & f & Ef).
    apply quiet_leaf; [unfold h0; rewrite app_length; lia|unfold h0; now rewrite get_app_l, Ef..]. }
  set (S1 := if sw then [] else [k1]).
  assert (Q1 : quiet S1 h1 k1).
  { unfold S1. destruct sw; [exact (switch_quiet _ _ _ _ _ _ (proj2 (Hsw eq_refl)) E1 _)|apply quiet_self; [now left|auto]]. }
  (* h2 extends h1: from the hidden lemma, for which wf h1 is needed *)
  assert (W1' : wf_heap h1 -> quiet_act a dl h1) by (intros W1; rewrite G1; apply quiet_act_app; auto; rewrite G1 in W1; now apply wf_prefix in W1).
  assert (GH : exists e2, h2 = h1 ++ e2) by (eapply grows_hidden; exact E2).
  destruct GH as (e2 & G2). assert (W1 : wf_heap h1) by (rewrite G2 in W2; now apply wf_prefix in W2).
  destruct (hidden_quiet g a dl sw (fun C => proj1 (Hsw C)) Hres Hn _ _ _ S1 _ _ _ E2 W2 (W1' W1)) as (S2 & _ & _ & Q2 & QL2 & I12 & IL2 & ILL2 & Sw2 & Ln2).
  { intros k [<-|[]]. exact Q1. }
  { unfold S1. destruct sw; intros x Hx; [destruct Hx|exact Hx]. }
  destruct (between_quiet a dl Hn _ _ _ E3 W3 Q2) as (_ & _ & Q3 & B3).
  set (S3 := if sw then [] else k2 :: S2).
  assert (Q4 : quiet S3 h4 k2).
  { unfold S3. destruct sw; [exact (switch_quiet _ _ _ _ _ _ (proj1 (Hsw eq_refl)) E4 _)|apply quiet_self; [now left|auto]]. }
  assert (I23 : incl S2 S3).
  { unfold S3. destruct sw; [rewrite (Sw2 eq_refl); unfold S1; apply incl_refl|apply incl_tl, incl_refl]. }
  assert (IS : incl S3 l).
  { unfold S3, l. intros x Hx. destruct sw; [destruct Hx|]. destruct Hx as [<-|Hx]; [do 3 (apply in_or_app; right); now left|].
    apply in_or_app. left. now apply IL2. }
  assert (QL : forall k, In k l -> quiet S3 h4 k).
  { intros k Hk. unfold l in Hk. apply in_app_or in Hk. destruct Hk as [Hk|Hk].
    - apply (quiet_incl S2); auto. rewrite G4. apply quiet_app; auto. rewrite G3. apply quiet_app; auto.
    - rewrite app_assoc in Hk. apply in_app_or in Hk. destruct Hk as [Hk|[<-|[]]]; [|exact Q4].
      rewrite G4. apply quiet_app; auto. }
  set (om := OMLP dl k1 k2 (length h4)) in *.
  assert (E5 : h' = h5 ++ [om]) by (symmetry; exact E). clear E. subst h'.
  exists (length h4), l, S3.
  assert (Gm : get (h5 ++ [om]) (length h4) = OSequential l).
  { rewrite get_app_l by (unfold h5; rewrite app_length; cbn; lia). apply get_last. }
  split; [unfold model_of; now rewrite get_last|]. split; [exact Gm|]. split; [exact IS|]. split; [|split].
  - assert (X : forall k, quiet S3 h4 k -> quiet S3 (h5 ++ [om]) k).
    { intros k Hk. apply quiet_app; auto. apply quiet_app; auto. }
    apply quiet_parent; [rewrite app_length; cbn; lia|now rewrite get_last|]. rewrite get_last. unfold om at 1. cbn [children].
    intros c [<-|[<-|[<-|[<-|[]]]]].
    + apply X. apply (quiet_incl []); [intros ? []|]. rewrite G4. apply quiet_app; auto. apply (proj1 Q3).
    + apply X. apply QL. unfold l. apply in_or_app. left. apply ILL2. now left.
    + apply X, Q4.
    + apply quiet_parent; [unfold h5; rewrite !app_length; cbn; lia|now rewrite Gm|]. rewrite Gm. cbn [children]. intros c Hc. now apply X, QL.
  - intros C. unfold S3. now rewrite C.
  - unfold S3. destruct sw; cbn; [lia|]. unfold S1 in Ln2. cbn in Ln2. lia.
Qed.

(** A HighOrderMLP of switch layers (normalisation and activation without parameters of their own, residual or not, any
    depth) has no parameters at all: an optimizer given [net.parameters()] trains nothing. *)
Theorem C45_switch_mlp_has_no_parameters : forall g a h net h', wf_heap h -> flat_mlp h a ->
  is_switch (ma_layer_type a) -> is_switch (or_string (ma_layer_type_in a) (ma_layer_type a)) ->
  (forall f ps, ma_normalization a = Some (f, ps) -> ps = []) ->
  (forall k, ma_non_linearity a = Some k -> exists f, get h k = OModule f []) ->
  HighOrderMLP g a h = Ok (net, h') -> parameters h' net = [].
Proof.
  intros g a h net h' W F T Ti Hn Ha E. destruct (mlp_typed g a h W F) as (net0 & e & E0 & We & Ty & _). rewrite E in E0. injection E0 as <- ->.
  destruct (mlp_quiet g a true h net (h ++ e)) as (m & ls & S & _ & _ & _ & (L & Q) & HS & _); auto; [discriminate|intros k Hk; split; [now apply (fm_act _ _ F)|now apply Ha]|].
  rewrite (HS eq_refl) in Q. apply no_parameters; auto. intros j Hj. destruct (Q j Hj) as [|(s & [] & _)]; auto.
Qed.
Print Assumptions C45_switch_mlp_has_no_parameters.

(** A residual HighOrderMLP, however deep, has the parameters of at most three of its modules (the input layer, the
    first hidden layer and the output layer): the other hidden layers are never trained. *)
Theorem C45_resnet_trains_three_layers : forall g a h net h', wf_heap h -> flat_mlp h a -> ma_resnet a = true ->
  (forall f ps, ma_normalization a = Some (f, ps) -> ps = []) ->
  (forall k, ma_non_linearity a = Some k -> exists f, get h k = OModule f []) ->
  HighOrderMLP g a h = Ok (net, h') ->
  length (network_layers h' net) = ma_hidden_layers a + 2 /\
  exists m ls trained, model_of h' net = Ok m /\ get h' m = OSequential ls /\ incl trained ls /\ length trained <= 3 /\
    forall j p, In (j, p) (parameters h' net) -> exists s, In s trained /\ within h' s j.
Proof.
  intros g a h net h' W F Rn Hn Ha E. destruct (mlp_typed g a h W F) as (net0 & e & E0 & We & Ty & C). rewrite E in E0. injection E0 as <- ->.
  split; auto.
  destruct (mlp_quiet g a false h net (h ++ e)) as (m & ls & S & Em & Es & IS & (L & Q) & _ & Ln); auto; [discriminate|intros k Hk; split; [now apply (fm_act _ _ F)|now apply Ha]|].
  exists m, ls, S. do 4 (split; [assumption|]). intros j p Hp. destruct (parameters_within _ _ _ _ We L Hp) as (Hw & Hq).
  destruct (Q j Hw) as [N|N]; auto. rewrite N in Hq. destruct Hq.
Qed.
Print Assumptions C45_resnet_trains_three_layers.

(** Cases: three branches (one of them used twice), a sum of two, and networks built by the constructors. *)
Definition demo_branches : heap :=
  [OModule (fun x => Ok (tmap (Rplus 1) x)) ["w"%string]; OModule (fun x => Ok (tmap (Rmult 2) x)) ["w"%string];
   OSwitch 2 2 [0; 1; 0] None; OSum [0; 1]].
Lemma demo_branches_wf : wf_heap demo_branches.
Proof. intros i Hi j Hj. cbn in Hi. destruct i as [|[|[|[|]]]]; cbn in Hj; try lia. Qed.
Example C45_switch_case : forall x s, shape x = s -> exists z, call demo_branches 2 x = Ok z /\ shape z = s /\
  (forall ix, valid s ix -> at_ z ix = (1 + at_ x ix) * (2 * at_ x ix) * (1 + at_ x ix))%R /\ parameters demo_branches 2 = [].
Proof.
  intros x s Hs.
  destruct (C45_switch_is_product demo_branches 2 2 2 [0; 1; 0] None x
              [tmap (Rplus 1) x; tmap (Rmult 2) x; tmap (Rplus 1) x] s demo_branches_wf) as (z & Sz & Vz & Ez);
    [cbn; lia|reflexivity|discriminate|reflexivity| |].
  - intros i Hi. cbn in Hi. destruct i as [|[|[|]]]; [split; [reflexivity|exact Hs]..|lia].
  - exists z. split; [exact Ez|]. split; [exact Sz|].
    split; [|apply (C45_switch_parameters _ _ 2 2 [0; 1; 0]); [apply demo_branches_wf|cbn; lia|reflexivity]].
    intros ix V. rewrite Vz by exact V. cbn. ring.
Qed.
Example C59_case : forall x s, shape x = s -> exists z, call demo_branches 3 x = Ok z /\ shape z = s /\
  (forall ix, valid s ix -> at_ z ix = (1 + at_ x ix) + (2 * at_ x ix))%R /\ parameters demo_branches 3 = [].
Proof.
  intros x s Hs. assert (L : 3 < length demo_branches) by (cbn; lia).
  destruct (proj1 (C59_sum_layer demo_branches 3 [0; 1] x demo_branches_wf L eq_refl) 0 1 (tmap (Rplus 1) x) (tmap (Rmult 2) x) s)
    as (z & Ez & Sz & Vz); try reflexivity; try exact Hs.
  exists z. split; [exact Ez|]. split; [exact Sz|].
  split; [|apply (C45_sum_parameters _ _ [0; 1]); [apply demo_branches_wf|cbn; lia|reflexivity]].
  intros ix V. rewrite Vz by exact V. reflexivity.
Qed.

Definition demo_deep (t : string) (resnet : bool) : mlp_args :=
  mkMLP t (Int 3) 2 5 4 7 2 None None (Some (Int 2)) true (Some 2%R) (Some 0)
    (Some (Int 1)) (Some (Int 2)) (Some (Int 3)) (Some ((fun x => Ok x), [])) resnet None "uniform" (1/2).
Definition demo_act : heap := [OModule (fun x => Ok (tmap Ratan.atan x)) []].
Lemma demo_act_wf : wf_heap demo_act.
Proof. intros [|i] Hi j Hj; [destruct Hj|cbn in Hi; lia]. Qed.
Lemma demo_deep_flat t r : In t ["continuous"; "switch_discontinuous"]%string -> flat_mlp demo_act (demo_deep t r).
Proof.
  intros T.
  assert (F : forall k s, flat_layer t (Int (S k)) (Some (Int (S s)))).
  { intros k s. right. right. split; [destruct T as [<-|[<-|[]]]; cbn; tauto|]. exists (S k), (S s). repeat split; lia. }
  constructor; cbn; try lra; try lia; try apply F.
  - right. apply F.
  - intros f ps E. injection E as <- _. intros x B Hx. eauto.
  - intros k E. injection E as <-. split; [lia|]. eexists _, _. split; [reflexivity|]. intros x B Hx. eexists. split; [reflexivity|]. reflexivity.
Qed.

Example C45_switch_mlp_case : exists net h, HighOrderMLP (fun k _ => INR k) (demo_deep "switch_discontinuous" false) demo_act = Ok (net, h) /\
  length (network_layers h net) = 6 /\ parameters h net = [].
Proof.
  assert (F := demo_deep_flat "switch_discontinuous" false (or_intror (or_introl eq_refl))).
  destruct (mlp_typed (fun k _ => INR k) _ _ demo_act_wf F) as (net & e & E & _ & _ & L). exists net, (demo_act ++ e).
  split; [exact E|]. split; [exact L|].
  eapply (C45_switch_mlp_has_no_parameters (fun k _ => INR k) _ _ _ _ demo_act_wf F); try exact E; try (right; now left).
  - intros f ps Ef. now injection Ef as _ <-.
  - intros k Ek. injection Ek as <-. eexists. reflexivity.
Qed.
Example C45_resnet_case : exists net h m ls trained,
  HighOrderMLP (fun k _ => INR k) (demo_deep "continuous" true) demo_act = Ok (net, h) /\
  length (network_layers h net) = 6 /\ model_of h net = Ok m /\ get h m = OSequential ls /\ incl trained ls /\ length trained <= 3 /\
  forall j p, In (j, p) (parameters h net) -> exists s, In s trained /\ within h s j.
Proof.
  assert (F := demo_deep_flat "continuous" true (or_introl eq_refl)).
  destruct (mlp_typed (fun k _ => INR k) _ _ demo_act_wf F) as (net & e & E & _ & _ & _). exists net, (demo_act ++ e).
  destruct (C45_resnet_trains_three_layers (fun k _ => INR k) _ _ net (demo_act ++ e) demo_act_wf F eq_refl) as (L & m & ls & S & H); try exact E.
  - intros f ps Ef. now injection Ef as _ <-.
  - intros k Ek. injection Ek as <-. eexists. reflexivity.
  - exists m, ls, S. split; [exact E|]. split; [exact L|]. exact H.
Qed.
