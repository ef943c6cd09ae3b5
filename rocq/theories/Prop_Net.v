(** * Whole networks: refinement of a HighOrderMLP (C20, C21). *)
From Coq Require Import String Reals Lra ZArith List Lia Bool Arith.
From Verif Require Import Spec Tensor Utils LagrangePolynomial Basis PolynomialLayers Refine ProductLayer LagrangeND Layers Networks
  Observe ObserveNet TensorFacts LayerFacts SegmentFacts LayerProofs RefineFacts HeapFacts NetFacts NetCopy Prop_Layers Prop_Refine.
Import ListNotations.
Local Open Scope R_scope.

(** ** Slots of two networks *)
Definition layer_class (lt : string) : pw_class :=
  if (String.eqb lt "continuous" || String.eqb lt "switch_continuous")%bool then PiecewisePolynomial else PiecewiseDiscontinuousPolynomial.
Lemma layer_slot_rel copy lt n n' I O s s' per : refinable_type lt ->
  (forall p, p = per \/ p = None -> copy_ok copy (pw_slot (layer_class lt) n I O s p) (pw_slot (layer_class lt) n' I O s' p)) ->
  slot_rel copy (layer_slot lt n I O s per) (layer_slot lt n' I O s' per).
Proof.
  intros [->|[->|[->| ->]]] H; cbn in *; auto; repeat constructor; auto.
Qed.
Lemma layer_slot_io lt n I O s per : slot_io (layer_slot lt n I O s per) I O.
Proof. unfold layer_slot. repeat match goal with |- context [if ?c then _ else _] => destruct c end; cbn; repeat constructor. Qed.

Lemma between_io a W : (forall f ps, ma_normalization a = Some (f, ps) -> shape_preserving f) ->
  slots_ok W (between_slots (ma_normalization a) (ma_non_linearity a) ++ drop_slots a) W.
Proof.
  intros H. unfold between_slots, drop_slots.
  apply slots_ok_app with W; [apply slots_ok_app with W|].
  - destruct (ma_normalization a) as [[f ps]|]; [|constructor]. apply slots_ok_one. split; [eapply H; eauto|reflexivity].
  - destruct (ma_non_linearity a); [|constructor]. now apply slots_ok_one.
  - destruct Rlt_dec; [|constructor]. now apply slots_ok_one.
Qed.
Lemma mlp_io a ni nh no si sh so : (forall f ps, ma_normalization a = Some (f, ps) -> shape_preserving f) ->
  slots_ok (ma_in_width a) (mlp_slots a ni nh no si sh so) (ma_out_width a).
Proof.
  intros H. unfold mlp_slots. apply slots_ok_app with (ma_hidden_width a); [apply slots_ok_one, layer_slot_io|].
  apply slots_ok_app with (ma_hidden_width a).
  - induction (ma_hidden_layers a) as [|n IH]; [constructor|]. cbn [repeat concat]. apply slots_ok_app with (ma_hidden_width a); [|exact IH].
    unfold hidden_slots. rewrite app_assoc. apply slots_ok_app with (ma_hidden_width a); [now apply between_io|apply slots_ok_one, layer_slot_io].
  - rewrite app_assoc. apply slots_ok_app with (ma_hidden_width a); [now apply between_io|apply slots_ok_one, layer_slot_io].
Qed.

Definition layer_copies copy (lt : string) (n n' s s' : nat) (per : option R) : Prop :=
  forall p I O, p = per \/ p = None -> copy_ok copy (pw_slot (layer_class lt) n I O s p) (pw_slot (layer_class lt) n' I O s' p).

Lemma mlp_slots_rel copy h0 a a' ni nh no si sh so ni' nh' no' si' sh' so' : same_architecture h0 a a' ->
  refinable_type (ma_layer_type a) -> refinable_type (or_string (ma_layer_type_in a) (ma_layer_type a)) ->
  layer_copies copy (or_string (ma_layer_type_in a) (ma_layer_type a)) ni ni' si si' (ma_periodicity a) ->
  layer_copies copy (ma_layer_type a) nh nh' sh sh' (ma_periodicity a) ->
  layer_copies copy (ma_layer_type a) no no' so so' (ma_periodicity a) ->
  Forall2 (slot_rel copy) (mlp_slots a ni nh no si sh so) (mlp_slots a' ni' nh' no' si' sh' so').
Proof.
  intros SA T Ti Ci Ch Co. unfold mlp_slots. destruct SA as [Et Eti Ei Eh Eo Ed Ep En Ens Edr Ea].
  rewrite Et, Ei, Eh, Eo, Ed, Ep. rewrite Et in Eti. rewrite Eti.
  assert (Bt : Forall2 (slot_rel copy) (between_slots (ma_normalization a) (ma_non_linearity a)) (between_slots (ma_normalization a') (ma_non_linearity a'))).
  { unfold between_slots. rewrite En. apply Forall2_app.
    - destruct (ma_normalization a) as [[f ps]|]; repeat constructor.
    - destruct (ma_non_linearity a), (ma_non_linearity a'); try contradiction; repeat constructor. }
  assert (Dr : Forall2 (slot_rel copy) (drop_slots a) (drop_slots a')).
  { unfold drop_slots. rewrite Edr. destruct Rlt_dec; repeat constructor. }
  apply Forall2_app; [|apply Forall2_app; [|apply Forall2_app; [exact Bt|apply Forall2_app; [exact Dr|]]]].
  - constructor; [|constructor]. apply layer_slot_rel; auto.
  - clear Ed. induction (ma_hidden_layers a) as [|n IH]; [constructor|]. cbn [repeat concat]. apply Forall2_app; [|exact IH].
    unfold hidden_slots. rewrite Et, Eh, Ep. apply Forall2_app; [exact Bt|apply Forall2_app; [exact Dr|]].
    constructor; [|constructor]. apply layer_slot_rel; auto.
  - constructor; [|constructor]. apply layer_slot_rel; auto.
Qed.

(** ** Two networks built one after the other *)
Lemma no_SNl_layer lt n I O s per : layer_slot lt n I O s per <> SNl.
Proof. unfold layer_slot. repeat match goal with |- context [if ?c then _ else _] => destruct c end; discriminate. Qed.
Lemma SNl_given a ni nh no si sh so : In SNl (mlp_slots a ni nh no si sh so) -> exists k, ma_non_linearity a = Some k.
Proof.
  destruct (ma_non_linearity a) as [k|] eqn:E; [eauto|]. intros H. exfalso.
  assert (Bt : ~ In SNl (between_slots (ma_normalization a) (ma_non_linearity a) ++ drop_slots a)).
  { unfold between_slots, drop_slots. rewrite E. destruct (ma_normalization a) as [[f ps]|], Rlt_dec; cbn; intuition discriminate. }
  unfold mlp_slots in H. rewrite (app_assoc (between_slots _ _)) in H.
  apply in_app_or in H. destruct H as [[H|[]]|H]; [now apply no_SNl_layer in H|].
  apply in_app_or in H. destruct H as [H|H].
  - induction (ma_hidden_layers a) as [|n IH]; [destruct H|]. cbn [repeat concat] in H. apply in_app_or in H. destruct H as [H|H]; [|auto].
    unfold hidden_slots in H. rewrite app_assoc in H. apply in_app_or in H. destruct H as [H|[H|[]]]; [contradiction|now apply no_SNl_layer in H].
  - apply in_app_or in H. destruct H as [H|[H|[]]]; [contradiction|now apply no_SNl_layer in H].
Qed.

Lemma mlp_pair copy g1 g2 a a' h0 h1 h2 h net1 net2 ni nh no si sh so ni' nh' no' si' sh' so' :
  wf_heap h0 -> plain_mlp a ni nh no si sh so -> plain_mlp a' ni' nh' no' si' sh' so' -> same_architecture h0 a a' ->
  HighOrderMLP g1 a h0 = Ok (net1, h1) -> HighOrderMLP g2 a' h1 = Ok (net2, h2) -> retrained h2 h ->
  Forall2 (slot_rel copy) (mlp_slots a ni nh no si sh so) (mlp_slots a' ni' nh' no' si' sh' so') ->
  exists h', copy_network copy net1 net2 h = (h', None) /\ retrained h h' /\
    (forall x, call h' net1 x = call h net1 x) /\ sim (ma_in_width a) (ma_out_width a) (call h net1) (call h' net2).
Proof.
  intros W P P' SA H1 H2 Rt Rl.
  set (nl1 := match ma_non_linearity a with Some k => k | None => 0%nat end).
  set (nl2 := match ma_non_linearity a' with Some k => k | None => 0%nat end).
  pose proof (sa_act _ _ _ SA) as Act.
  destruct (mlp_spec g1 a ni nh no si sh so h0 nl1) as (n1 & e1 & dl1 & k11 & k12 & m1 & L1 & E1 & G1 & Q1 & B1 & V1 & Ln1 & Lm1 & X1 & D1); auto.
  { intros k Ek. unfold nl1. rewrite Ek in *. destruct (ma_non_linearity a'); [|contradiction].
    destruct Act as (A1 & A2 & f & ps & ps' & A3 & A4 & A5). split; auto. split; auto. eauto. }
  rewrite E1 in H1. injection H1 as -> <-.
  assert (W1 : wf_heap (h0 ++ e1)) by apply B1.
  destruct (mlp_spec g2 a' ni' nh' no' si' sh' so' (h0 ++ e1) nl2) as (n2 & e2 & dl2 & k21 & k22 & m2 & L2 & E2 & G2 & Q2 & B2 & V2 & Ln2 & Lm2 & X2 & D2); auto.
  { intros k Ek. unfold nl2. rewrite Ek in *. destruct (ma_non_linearity a); [|contradiction].
    destruct Act as (A1 & A2 & f & ps & ps' & A3 & A4 & A5). split; auto. split; [rewrite app_length; lia|]. rewrite get_app_l by auto. eauto. }
  rewrite E2 in H2. injection H2 as -> <-.
  set (h2 := (h0 ++ e1) ++ e2) in *.
  assert (Wf2 : wf_heap h2) by apply B2.
  assert (Wf : wf_heap h) by now apply (retrained_wf h2).
  assert (Len : length h = length h2) by apply Rt.
  assert (Same : forall k o, get h2 k = o -> (k < length h2)%nat -> match o with OSequential _ | OMLP _ _ _ _ | OModule _ _ => True | _ => False end -> get h k = o).
  { intros k o Ek Lk Ho. pose proof (retrained_same h2 h k Rt Lk) as S. rewrite Ek in S. destruct o; try contradiction; exact S. }
  assert (L1' : (length (h0 ++ e1) <= length h2)%nat) by (unfold h2; rewrite (app_length (h0 ++ e1)); lia).
  destruct (two_networks copy h net1 net2 dl1 k11 k12 dl2 k21 k22 m1 m2 (length h0) (length (h0 ++ e1)) nl1 nl2 dl1 dl2 L1 L2
              (mlp_slots a ni nh no si sh so) (mlp_slots a' ni' nh' no' si' sh' so') (ma_in_width a) (ma_out_width a)) as (h' & Ec & Rt' & Low & Sm); auto; try lia.
  - apply Same; [unfold h2; now rewrite get_app_l|lia|auto].
  - apply Same; [unfold h2; now rewrite get_app_l|lia|auto].
  - apply (built_retrained _ _ _ h2); auto. unfold h2. apply built_app; auto.
  - apply (built_retrained _ _ _ h2); auto.
  - apply mlp_io. apply SA.
  - intros Hin. apply SNl_given in Hin. destruct Hin as (k & Ek). unfold nl1, nl2. rewrite Ek in *. destruct (ma_non_linearity a') as [k'|]; [|contradiction].
    destruct Act as (A1 & A2 & f & ps & ps' & A3 & A4 & A5). exists f, ps, ps'. rewrite app_length in L1'. split; auto. split; apply Same; auto; try lia; unfold h2; now rewrite <- app_assoc, get_app_l.
  - intros _. exists (fun x => Ok x), [], []. split; [split; cbn; auto; intros x y Ex; now injection Ex as ->|].
    destruct V1 as (A1 & A2 & _), V2 as (A3 & A4 & _). split; apply Same; auto; [|lia]. unfold h2. now rewrite get_app_l.
  - exists h'. split; auto. split; auto. split; auto. intros x. apply call_agree; auto; try lia.
    + now apply (retrained_wf h).
    + destruct Rt' as (-> & _). lia.
    + intros j Hj. apply Low. lia.
Qed.

(** ** C20 *)
Lemma copies_interpolate lt n n' s per : refinable_type lt -> (n <= n')%nat -> layer_copies pw_interpolate lt n n' s s per.
Proof.
  intros T Hn p I O _ li lo Hi Ho Ei Eo. unfold pw_slot in *. injection Ei as Ei1 Ei2 Ei3 Ei4 Ei5 Ei6 Ei7. injection Eo as Eo1 Eo2 Eo3 Eo4 Eo5 Eo6 Eo7.
  apply C15_p_refinement_preserves; auto; try congruence.
  - rewrite Ei1. unfold layer_class. destruct (_ || _)%bool; [now left|now right].
Qed.

(** Two networks of the same architecture, the second with at least as many nodes in every layer, both with any weights:
    interpolation succeeds, and afterwards the second network returns what the first returns, for every batch; the
    first network is unchanged. *)
Theorem C20_interpolated_mlp_same_output : forall g1 g2 a a' h0 h1 h2 h net1 net2 ni nh no ni' nh' no' si sh so,
  wf_heap h0 -> plain_mlp a ni nh no si sh so -> plain_mlp a' ni' nh' no' si sh so -> same_architecture h0 a a' ->
  (ni <= ni')%nat -> (nh <= nh')%nat -> (no <= no')%nat ->
  HighOrderMLP g1 a h0 = Ok (net1, h1) -> HighOrderMLP g2 a' h1 = Ok (net2, h2) -> retrained h2 h ->
  exists h', interpolate_high_order_mlp net1 net2 h = (h', None) /\ retrained h h' /\
    forall B x, shape x = [B; ma_in_width a] ->
      same_result (call h net1 x) (call h' net2 x) /\ call h' net1 x = call h net1 x.
Proof.
  intros g1 g2 a a' h0 h1 h2 h net1 net2 ni nh no ni' nh' no' si sh so W P P' SA Li Lh Lo H1 H2 Rt.
  destruct (mlp_pair pw_interpolate g1 g2 a a' h0 h1 h2 h net1 net2 ni nh no si sh so ni' nh' no' si sh so W P P' SA H1 H2 Rt) as (h' & E & R' & U & Sm).
  - destruct P. eapply mlp_slots_rel; eauto; now apply copies_interpolate.
  - exists h'. split; auto. split; auto. intros B x Hx. split; auto.
    specialize (Sm B x x (teq_refl x) Hx). unfold rel in Sm. unfold same_result.
    destruct (call h net1 x), (call h' net2 x); tauto.
Qed.
Print Assumptions C20_interpolated_mlp_same_output.

(** ** C21 *)
Lemma copies_refine lt n n' s m per : lt = "continuous"%string \/ lt = "switch_continuous"%string ->
  (forall p, per = Some p -> 2 <= p) -> (n <= n')%nat -> (2 <= n')%nat -> layer_copies pw_refine lt n n' s (m * s) per.
Proof.
  intros T Hp Hn H2 p I O Hper li lo Hi Ho Ei Eo. unfold pw_slot in *. injection Ei as Ei1 Ei2 Ei3 Ei4 Ei5 Ei6 Ei7. injection Eo as Eo1 Eo2 Eo3 Eo4 Eo5 Eo6 Eo7.
  assert (Ec : layer_class lt = PiecewisePolynomial) by (destruct T as [->| ->]; reflexivity). rewrite Ec in *.
  unfold pw_refine. rewrite Ei1. cbn [is_continuous_class].
  apply (C18_h_refinement_preserves li lo m); auto; try congruence.
  - rewrite Ei1. now left.
  - intros q Hq. rewrite Ei7 in Hq. destruct Hper as [->| ->]; [auto|discriminate].
Qed.

Theorem C21_hp_refined_mlp_same_output : forall g1 g2 a a' h0 h1 h2 h net1 net2 ni nh no ni' nh' no' si sh so ci ch co,
  wf_heap h0 -> plain_mlp a ni nh no si sh so -> plain_mlp a' ni' nh' no' (ci * si) (ch * sh) (co * so) -> same_architecture h0 a a' ->
  (forall t, t = ma_layer_type a \/ t = or_string (ma_layer_type_in a) (ma_layer_type a) ->
     t = "continuous"%string \/ t = "switch_continuous"%string) ->
  (forall p, ma_periodicity a = Some p -> 2 <= p) ->
  (ni <= ni')%nat -> (nh <= nh')%nat -> (no <= no')%nat -> (2 <= ni')%nat -> (2 <= nh')%nat -> (2 <= no')%nat ->
  HighOrderMLP g1 a h0 = Ok (net1, h1) -> HighOrderMLP g2 a' h1 = Ok (net2, h2) -> retrained h2 h ->
  exists h', hp_refine_high_order_mlp net1 net2 h = (h', None) /\ retrained h h' /\
    forall B x, shape x = [B; ma_in_width a] ->
      same_result (call h net1 x) (call h' net2 x) /\ call h' net1 x = call h net1 x.
Proof.
  intros g1 g2 a a' h0 h1 h2 h net1 net2 ni nh no ni' nh' no' si sh so ci ch co W P P' SA T Hp Li Lh Lo Li2 Lh2 Lo2 H1 H2 Rt.
  destruct (mlp_pair pw_refine g1 g2 a a' h0 h1 h2 h net1 net2 ni nh no si sh so ni' nh' no' (ci * si) (ch * sh) (co * so) W P P' SA H1 H2 Rt) as (h' & E & R' & U & Sm).
  - destruct P. eapply mlp_slots_rel; eauto; now apply copies_refine; auto.
  - exists h'. split; auto. split; auto. intros B x Hx. split; auto.
    specialize (Sm B x x (teq_refl x) Hx). unfold rel in Sm. unfold same_result.
    destruct (call h net1 x), (call h' net2 x); tauto.
Qed.
Print Assumptions C21_hp_refined_mlp_same_output.

(** *** The hypotheses are met *)
Definition demo_args (lti lt : string) (n s : nat) : mlp_args :=
  mkMLP lt (Int n) 2 1 3 4 1 None None (Some (Int n)) false (Some 3) (Some 0%nat) (Some (Int s)) (Some (Int s)) (Some (Int s))
    (Some ((fun x => Ok (tmap (fun t => 2 * t) x)), ["weight"%string])) false (Some lti) "uniform" (1/2).
Definition demo_heap : heap := [OModule (fun x => Ok (relu x)) []].
Lemma demo_heap_wf : wf_heap demo_heap.
Proof. intros i Hi j Hj. cbn in Hi. destruct i; [|lia]. destruct Hj. Qed.
Lemma map_shape_preserving f : shape_preserving (fun x => Ok (tmap f x)).
Proof.
  split; [|intros x y E; now injection E as <-]. intros x x' (Es & Ea). cbn. split; [exact Es|]. intros ix Hv. cbn in *. now rewrite Ea.
Qed.
Lemma demo_plain lti lt n s : refinable_type lti -> refinable_type lt -> (1 <= n)%nat -> (1 <= s)%nat -> plain_mlp (demo_args lti lt n s) n n n s s s.
Proof.
  intros Ti T Hn Hs. destruct n as [|n]; [lia|]. constructor; cbn; auto; try lia; try lra.
  destruct Ti as [->|[->|[->| ->]]]; cbn; unfold refinable_type; auto.
Qed.
Lemma demo_same lti lt n s n' s' : same_architecture demo_heap (demo_args lti lt n s) (demo_args lti lt n' s').
Proof.
  constructor; cbn; auto.
  - intros f ps E. injection E as <- _. apply map_shape_preserving.
  - split; auto. split; auto. eexists _, [], []. split; [|split; reflexivity]. apply (map_shape_preserving (Rmax 0)).
Qed.

Example C20_case : exists net1 h1 net2 h2 h',
  HighOrderMLP (fun k _ => INR k) (demo_args "continuous" "switch_discontinuous" 2 3) demo_heap = Ok (net1, h1) /\
  HighOrderMLP (fun k _ => - INR k) (demo_args "continuous" "switch_discontinuous" 5 3) h1 = Ok (net2, h2) /\
  interpolate_high_order_mlp net1 net2 h2 = (h', None) /\
  same_result (call h2 net1 (one_sample 2 INR)) (call h' net2 (one_sample 2 INR)).
Proof.
  assert (T : refinable_type "switch_discontinuous") by (right; right; now right).
  assert (P1 : plain_mlp (demo_args "continuous" "switch_discontinuous" 2 3) 2 2 2 3 3 3) by (apply demo_plain; auto; now left).
  assert (P2 : plain_mlp (demo_args "continuous" "switch_discontinuous" 5 3) 5 5 5 3 3 3) by (apply demo_plain; auto; try lia; now left).
  destruct (mlp_spec (fun k _ => INR k) _ _ _ _ _ _ _ demo_heap 0%nat P1 demo_heap_wf) as (n1 & e1 & ? & ? & ? & ? & ? & E1 & _ & _ & B1 & _).
  { intros k Ek. injection Ek as <-. cbn. split; auto. split; [lia|]. eexists _, _. reflexivity. }
  destruct (mlp_spec (fun k _ => - INR k) _ _ _ _ _ _ _ (demo_heap ++ e1) 0%nat P2) as (n2 & e2 & ? & ? & ? & ? & ? & E2 & _ & _ & B2 & _).
  { apply B1. }
  { intros k Ek. injection Ek as <-. cbn. split; auto. split; [lia|]. eexists _, _. reflexivity. }
  destruct (C20_interpolated_mlp_same_output _ _ _ _ _ _ _ _ n1 n2 _ _ _ _ _ _ _ _ _ demo_heap_wf P1 P2 (demo_same _ _ _ _ _ _)
              ltac:(lia) ltac:(lia) ltac:(lia) E1 E2 (retrained_refl _)) as (h' & Eh & _ & Sm).
  exists n1, (demo_heap ++ e1), n2, ((demo_heap ++ e1) ++ e2), h'. repeat split; auto. now apply (Sm 1%nat).
Qed.

Example C21_case : exists net1 h1 net2 h2 h',
  HighOrderMLP (fun k _ => INR k) (demo_args "continuous" "switch_continuous" 2 3) demo_heap = Ok (net1, h1) /\
  HighOrderMLP (fun k _ => - INR k) (demo_args "continuous" "switch_continuous" 4 6) h1 = Ok (net2, h2) /\
  hp_refine_high_order_mlp net1 net2 h2 = (h', None) /\
  same_result (call h2 net1 (one_sample 2 INR)) (call h' net2 (one_sample 2 INR)).
Proof.
  assert (T : refinable_type "switch_continuous") by (right; right; now left).
  assert (P1 : plain_mlp (demo_args "continuous" "switch_continuous" 2 3) 2 2 2 3 3 3) by (apply demo_plain; auto; now left).
  assert (P2 : plain_mlp (demo_args "continuous" "switch_continuous" 4 6) 4 4 4 (2 * 3) (2 * 3) (2 * 3)) by (apply demo_plain; auto; try lia; now left).
  destruct (mlp_spec (fun k _ => INR k) _ _ _ _ _ _ _ demo_heap 0%nat P1 demo_heap_wf) as (n1 & e1 & ? & ? & ? & ? & ? & E1 & _ & _ & B1 & _).
  { intros k Ek. injection Ek as <-. cbn. split; auto. split; [lia|]. eexists _, _. reflexivity. }
  destruct (mlp_spec (fun k _ => - INR k) _ _ _ _ _ _ _ (demo_heap ++ e1) 0%nat P2) as (n2 & e2 & ? & ? & ? & ? & ? & E2 & _ & _ & B2 & _).
  { apply B1. }
  { intros k Ek. injection Ek as <-. cbn. split; auto. split; [lia|]. eexists _, _. reflexivity. }
  destruct (C21_hp_refined_mlp_same_output _ _ _ _ _ _ _ _ n1 n2 _ _ _ _ _ _ _ _ _ 2%nat 2%nat 2%nat demo_heap_wf P1 P2 (demo_same _ _ _ _ _ _)
              ltac:(cbn; intros t [->| ->]; auto) ltac:(cbn; intros p Ep; injection Ep as <-; lra)
              ltac:(lia) ltac:(lia) ltac:(lia) ltac:(lia) ltac:(lia) ltac:(lia) E1 E2 (retrained_refl _)) as (h' & Eh & _ & Sm).
  exists n1, (demo_heap ++ e1), n2, ((demo_heap ++ e1) ++ e2), h'. repeat split; auto. now apply (Sm 1%nat).
Qed.

(** *** Residual connections *)
Definition res_args : mlp_args :=
  mkMLP "continuous" (Int 2) 1 1 2 1 1 None None None false None None (Some (Int 1%nat)) (Some (Int 1%nat)) (Some (Int 1%nat))
    None true None "constant_random" 0.
Definition res_layer (g : rng) (k : nat) : piecewise := new_piecewise PiecewisePolynomial 2 1 1 1 2 1 None (fun o i => g k [o; i]).
Definition res_heap (p1 p2 p3 p5 q1 q2 q3 q5 : piecewise) : heap :=
  let drop := OModule (fun x => Ok x) [] in
  [drop; OPiecewise p1; OPiecewise p2; OPiecewise p3; OSum [3; 2]%nat; OPiecewise p5; OSequential [1; 2; 4; 5]%nat; OMLP 0 1 5 6;
   drop; OPiecewise q1; OPiecewise q2; OPiecewise q3; OSum [11; 10]%nat; OPiecewise q5; OSequential [9; 10; 12; 13]%nat; OMLP 8 9 13 14].
Lemma res_wf p1 p2 p3 p5 q1 q2 q3 q5 : wf_heap (res_heap p1 p2 p3 p5 q1 q2 q3 q5).
Proof.
  intros i Hi j Hj. cbn in Hi. do 16 (destruct i as [|i]; [cbn in Hj; intuition lia|]). lia.
Qed.
Lemma res_build g1 g2 : exists h1, HighOrderMLP g1 res_args [] = Ok (7%nat, h1) /\
  HighOrderMLP g2 res_args h1 = Ok (15%nat, res_heap (res_layer g1 1) (res_layer g1 2) (res_layer g1 3) (res_layer g1 5)
                                                     (res_layer g2 9) (res_layer g2 10) (res_layer g2 11) (res_layer g2 13)).
Proof.
  unfold HighOrderMLP. change (ma_hidden_layers res_args) with 2%nat. cbn [mlp_hidden]. unfold dropout_list.
  change (ma_dropout res_args) with 0.
  destruct (Rlt_dec 0 0) as [C|_]; [exfalso; lra|]. destruct (Rlt_dec 1 0) as [C|_]; [exfalso; lra|].
  eexists. split; [reflexivity|]. reflexivity.
Qed.

Definition ramp : tensor R := mkT [1; 1; 2]%nat (fun ix => INR (nth 2 ix 0%nat)).
Definition res_out (g : rng) (k : nat) : piecewise := with_w (res_layer g k) ramp.
Lemma res_layer_held g k : held (res_layer g k).
Proof. apply new_held; lia. Qed.
Lemma res_out_held g k : held (res_out g k).
Proof. apply with_w_held; [apply res_layer_held|reflexivity]. Qed.

(** One entry batches. *)
Definition scalar_layer (l : piecewise) : Prop := held l /\ pw_in l = 1%nat /\ pw_out l = 1%nat.
Lemma scalar_forward l x : scalar_layer l -> shape x = [1; 1]%nat ->
  exists y, Piecewise_forward l x = Ok y /\ shape y = [1; 1]%nat /\ at_ y [0; 0]%nat = layer_out l (fun i => at_ x [0%nat; i]) 0.
Proof.
  intros (H & Ei & Eo) Hx. destruct (forward_rows l x 1) as (y & E & Sh & V); [auto|congruence|].
  exists y. split; auto. split; [congruence|]. rewrite V by lia. reflexivity.
Qed.
Lemma sum_scalar a b : shape a = [1; 1]%nat -> shape b = [1; 1]%nat ->
  exists y, sum_outputs [a; b] = Ok y /\ shape y = [1; 1]%nat /\ at_ y [0; 0]%nat = at_ a [0; 0]%nat + at_ b [0; 0]%nat.
Proof.
  intros Ha Hb. unfold sum_outputs, broadcast2. rewrite Ha, Hb. eexists. split; [reflexivity|]. split; reflexivity.
Qed.
(** What a network with two hidden layers and a residual connection computes: the second hidden layer is applied to
    the output of the first, and the first is applied to its own output again. *)
Lemma res_call p1 p2 p3 p5 q1 q2 q3 q5 x : scalar_layer p1 -> scalar_layer p2 -> scalar_layer p3 -> scalar_layer p5 -> shape x = [1; 1]%nat ->
  exists y, call (res_heap p1 p2 p3 p5 q1 q2 q3 q5) 7 x = Ok y /\ shape y = [1; 1]%nat /\
    let u := layer_out p2 (fun _ => layer_out p1 (fun i => at_ x [0%nat; i]) 0) 0 in
    at_ y [0; 0]%nat = layer_out p5 (fun _ => layer_out p3 (fun _ => u) 0 + layer_out p2 (fun _ => u) 0) 0.
Proof.
  intros H1 H2 H3 H5 Hx.
  set (h := res_heap p1 p2 p3 p5 q1 q2 q3 q5). assert (W : wf_heap h) by apply res_wf.
  assert (Ext : forall l v v', scalar_layer l -> v 0%nat = v' 0%nat -> layer_out l v 0 = layer_out l v' 0).
  { intros l v v' (Hl & Ei & Eo) E. rewrite !layer_out_eq by (auto; lia). apply combine_ext. intros i Hi. replace i with 0%nat by lia. now rewrite E. }
  rewrite call_unfold by (auto; cbn; lia). cbn [get nth h res_heap obj_forward].
  rewrite call_unfold by (auto; cbn; lia). cbn [get nth h res_heap obj_forward run].
  rewrite call_unfold by (auto; cbn; lia). cbn [get nth h res_heap obj_forward].
  destruct (scalar_forward p1 x H1 Hx) as (y1 & -> & S1 & V1). cbn [rbind].
  rewrite call_unfold by (auto; cbn; lia). cbn [get nth h res_heap obj_forward].
  destruct (scalar_forward p2 y1 H2 S1) as (y2 & -> & S2 & V2). cbn [rbind].
  rewrite call_unfold by (auto; cbn; lia). cbn [get nth h res_heap obj_forward all_outputs].
  rewrite call_unfold by (auto; cbn; lia). cbn [get nth h res_heap obj_forward].
  destruct (scalar_forward p3 y2 H3 S2) as (y3 & -> & S3 & V3). cbn [rbind].
  rewrite call_unfold by (auto; cbn; lia). cbn [get nth h res_heap obj_forward].
  destruct (scalar_forward p2 y2 H2 S2) as (y4 & -> & S4 & V4). cbn [rbind].
  destruct (sum_scalar y3 y4 S3 S4) as (z & -> & Sz & Vz). cbn [rbind].
  rewrite call_unfold by (auto; cbn; lia). cbn [get nth h res_heap obj_forward].
  destruct (scalar_forward p5 z H5 Sz) as (y & -> & Sy & Vy). cbn [rbind].
  exists y. split; [reflexivity|]. split; [exact Sy|]. cbn zeta. rewrite Vy. apply Ext; auto. rewrite Vz, V3, V4.
  f_equal; apply Ext; auto; rewrite V2; apply Ext; auto.
Qed.
Lemma res_call2 p1 p2 p3 p5 q1 q2 q3 q5 x : scalar_layer q1 -> scalar_layer q2 -> scalar_layer q3 -> scalar_layer q5 -> shape x = [1; 1]%nat ->
  exists y, call (res_heap p1 p2 p3 p5 q1 q2 q3 q5) 15 x = Ok y /\ shape y = [1; 1]%nat /\
    let u := layer_out q2 (fun _ => layer_out q1 (fun i => at_ x [0%nat; i]) 0) 0 in
    at_ y [0; 0]%nat = layer_out q5 (fun _ => layer_out q3 (fun _ => u) 0 + layer_out q2 (fun _ => u) 0) 0.
Proof.
  intros H1 H2 H3 H5 Hx.
  set (h := res_heap p1 p2 p3 p5 q1 q2 q3 q5). assert (W : wf_heap h) by apply res_wf.
  assert (Ext : forall l v v', scalar_layer l -> v 0%nat = v' 0%nat -> layer_out l v 0 = layer_out l v' 0).
  { intros l v v' (Hl & Ei & Eo) E. rewrite !layer_out_eq by (auto; lia). apply combine_ext. intros i Hi. replace i with 0%nat by lia. now rewrite E. }
  rewrite call_unfold by (auto; cbn; lia). cbn [get nth h res_heap obj_forward].
  rewrite call_unfold by (auto; cbn; lia). cbn [get nth h res_heap obj_forward run].
  rewrite call_unfold by (auto; cbn; lia). cbn [get nth h res_heap obj_forward].
  destruct (scalar_forward q1 x H1 Hx) as (y1 & -> & S1 & V1). cbn [rbind].
  rewrite call_unfold by (auto; cbn; lia). cbn [get nth h res_heap obj_forward].
  destruct (scalar_forward q2 y1 H2 S1) as (y2 & -> & S2 & V2). cbn [rbind].
  rewrite call_unfold by (auto; cbn; lia). cbn [get nth h res_heap obj_forward all_outputs].
  rewrite call_unfold by (auto; cbn; lia). cbn [get nth h res_heap obj_forward].
  destruct (scalar_forward q3 y2 H3 S2) as (y3 & -> & S3 & V3). cbn [rbind].
  rewrite call_unfold by (auto; cbn; lia). cbn [get nth h res_heap obj_forward].
  destruct (scalar_forward q2 y2 H2 S2) as (y4 & -> & S4 & V4). cbn [rbind].
  destruct (sum_scalar y3 y4 S3 S4) as (z & -> & Sz & Vz). cbn [rbind].
  rewrite call_unfold by (auto; cbn; lia). cbn [get nth h res_heap obj_forward].
  destruct (scalar_forward q5 z H5 Sz) as (y & -> & Sy & Vy). cbn [rbind].
  exists y. split; [reflexivity|]. split; [exact Sy|]. cbn zeta. rewrite Vy. apply Ext; auto. rewrite Vz, V3, V4.
  f_equal; apply Ext; auto; rewrite V2; apply Ext; auto.
Qed.

Lemma same_out l l' v o : held l -> same_function l l' -> pw_in l' = pw_in l -> (o < pw_out l)%nat -> layer_out l' v o = layer_out l v o.
Proof.
  intros H F E Ho. unfold layer_out. rewrite E. destruct (F (one_sample (pw_in l) v) 1%nat eq_refl) as (y & y' & E1 & E2 & _ & V).
  destruct (forward_rows l (one_sample (pw_in l) v) 1 H eq_refl) as (z & Ez & Sz & _). rewrite Ez in E1. injection E1 as ->.
  rewrite Ez, E2. cbn. symmetry. apply V. rewrite Sz. cbn. lia.
Qed.
Lemma res_layer_out g k v : layer_out (res_layer g k) v 0 = g k [0; 0]%nat.
Proof. unfold res_layer. rewrite C04_constant_init_piecewise by (try lia; now left). cbn. field. Qed.
Lemma res_out_node g k j : (j < 2)%nat -> layer_out (res_out g k) (fun _ => lobatto 2 j) 0 = INR j.
Proof.
  intros Hj. rewrite (C07_weights_are_node_values (res_out g k) _ 0 (fun _ => 0%nat) (fun _ => j));
    [|apply res_out_held|reflexivity|reflexivity|now left|cbn; lia|].
  - cbn [res_out with_w pw_in res_layer new_piecewise pw_cls pw_n pw_w rsum ramp at_ nth weight_pos]. replace (0 * (2 - 1) + j)%nat with j by lia. ring.
  - intros i Hi. change (pw_segments (res_out g k)) with 1%nat. change (pw_n (res_out g k)) with 2%nat.
    split; [lia|]. split; [lia|]. split; [|left; now left]. unfold seg_global, knot. cbn. field.
Qed.
Lemma res_interpolate p1 p2 p3 p5 q1 q2 q3 q5 w1 w2 w5 :
  pw_interpolate p1 q1 = (w1, None) -> pw_interpolate p2 q2 = (w2, None) -> pw_interpolate p5 q5 = (w5, None) ->
  interpolate_high_order_mlp 7 15 (res_heap p1 p2 p3 p5 q1 q2 q3 q5)
  = (res_heap p1 p2 p3 p5 (with_w q1 w1) (with_w q2 w2) q3 (with_w q5 w5), None).
Proof.
  intros E1 E2 E5. unfold interpolate_high_order_mlp, copy_network.
  assert (L1 : layers_of (res_heap p1 p2 p3 p5 q1 q2 q3 q5) 7 = Ok [1; 2; 4; 5]%nat) by reflexivity.
  assert (L2 : layers_of (res_heap p1 p2 p3 p5 q1 q2 q3 q5) 15 = Ok [9; 10; 12; 13]%nat) by reflexivity.
  rewrite L1, L2. cbn [mbind combine mfold fst snd]. unfold res_heap.
  cbn [get nth has_refine obj_copy]. rewrite E1. cbn [set_obj firstn skipn app Nat.add].
  cbn [get nth has_refine obj_copy]. rewrite E2. cbn [set_obj firstn skipn app Nat.add].
  cbn [get nth has_refine obj_copy]. rewrite E5. cbn [set_obj firstn skipn app Nat.add]. reflexivity.
Qed.

(** With residual connections and two hidden layers the property fails: the layers inside a SumLayer are not copied. *)
Theorem C20_resnet_refuted : exists g1 g2 a net1 net2 h1 h2 h h' x,
  ma_resnet a = true /\ ma_hidden_layers a = 2%nat /\ ma_layer_type a = "continuous"%string /\
  HighOrderMLP g1 a [] = Ok (net1, h1) /\ HighOrderMLP g2 a h1 = Ok (net2, h2) /\ retrained h2 h /\
  interpolate_high_order_mlp net1 net2 h = (h', None) /\
  shape x = [1%nat; ma_in_width a] /\ ~ same_result (call h net1 x) (call h' net2 x).
Proof.
  set (g1 := fun (k : nat) (_ : index) => if Nat.eqb k 3 then -1 else 0).
  set (g2 := fun (k : nat) (_ : index) => if Nat.eqb k 11 then 1 else 0).
  destruct (res_build g1 g2) as (h1 & E1 & E2).
  set (h2 := res_heap _ _ _ _ _ _ _ _) in E2.
  set (h := res_heap (res_layer g1 1) (res_layer g1 2) (res_layer g1 3) (res_out g1 5) (res_layer g2 9) (res_layer g2 10) (res_layer g2 11) (res_layer g2 13)).
  assert (C : forall li lo, held li -> held lo -> cfg_of li = pw_slot PiecewisePolynomial 2 1 1 1 None -> cfg_of lo = pw_slot PiecewisePolynomial 2 1 1 1 None ->
    exists w', pw_interpolate li lo = (w', None) /\ shape w' = shape (pw_w lo) /\ same_function li (with_w lo w')).
  { intros li lo Hi Ho Ei Eo. apply (copies_interpolate "continuous" 2 2 1 None) with (p := None) (I := 1%nat) (O := 1%nat); auto. now left. }
  destruct (C (res_layer g1 1) (res_layer g2 9) (res_layer_held _ _) (res_layer_held _ _) eq_refl eq_refl) as (w1 & I1 & W1 & F1).
  destruct (C (res_layer g1 2) (res_layer g2 10) (res_layer_held _ _) (res_layer_held _ _) eq_refl eq_refl) as (w2 & I2 & W2 & F2).
  destruct (C (res_out g1 5) (res_layer g2 13) (res_out_held _ _) (res_layer_held _ _) eq_refl eq_refl) as (w5 & I5 & W5 & F5).
  set (x := mkT [1; 1]%nat (fun _ => 0)).
  exists g1, g2, res_args, 7%nat, 15%nat, h1, h2, h,
    (res_heap (res_layer g1 1) (res_layer g1 2) (res_layer g1 3) (res_out g1 5) (with_w (res_layer g2 9) w1) (with_w (res_layer g2 10) w2) (res_layer g2 11) (with_w (res_layer g2 13) w5)), x.
  split; [reflexivity|]. split; [reflexivity|]. split; [reflexivity|]. split; [exact E1|]. split; [exact E2|].
  split.
  { split; [reflexivity|]. intros i Hi. do 16 (destruct i as [|i]; [try apply RwSame; now apply RwPiecewise|]). cbn in Hi. lia. }
  split; [apply res_interpolate; eassumption|]. split; [reflexivity|].
  assert (Sc : forall g k, scalar_layer (res_layer g k)) by (intros; split; [apply res_layer_held|split; reflexivity]).
  assert (Sw : forall g k w, shape w = shape (pw_w (res_layer g k)) -> scalar_layer (with_w (res_layer g k) w)).
  { intros g k w Hw. split; [apply with_w_held; [apply res_layer_held|exact Hw]|split; reflexivity]. }
  assert (So : forall g k, scalar_layer (res_out g k)) by (intros; now apply Sw).
  destruct (res_call (res_layer g1 1) (res_layer g1 2) (res_layer g1 3) (res_out g1 5) (res_layer g2 9) (res_layer g2 10) (res_layer g2 11) (res_layer g2 13) x) as (y & Ey & Sh & V); auto.
  destruct (res_call2 (res_layer g1 1) (res_layer g1 2) (res_layer g1 3) (res_out g1 5) (with_w (res_layer g2 9) w1) (with_w (res_layer g2 10) w2) (res_layer g2 11) (with_w (res_layer g2 13) w5) x) as (y' & Ey' & _ & V'); auto.
  fold h in Ey. rewrite Ey, Ey'.
  cbn zeta in V, V'. rewrite !res_layer_out in V.
  rewrite (same_out (res_out g1 5)) in V' by (try apply res_out_held; auto; cbn; lia).
  rewrite !(same_out (res_layer g1 2) (with_w (res_layer g2 10) w2)) in V' by (try apply res_layer_held; auto; cbn; lia).
  rewrite !res_layer_out in V'. cbn [same_result]. intros (Sy & Q).
  assert (y00 : at_ y [0; 0]%nat = 0).
  { rewrite V. replace (g1 3%nat [0%nat; 0%nat] + g1 2%nat [0%nat; 0%nat]) with (lobatto 2 0); [apply res_out_node; lia|].
    unfold g1, lobatto. cbn. replace (0 * PI / 1) with 0 by field. rewrite cos_0. ring. }
  assert (y11 : at_ y' [0; 0]%nat = 1).
  { rewrite V'. replace (g2 11%nat [0%nat; 0%nat] + g1 2%nat [0%nat; 0%nat]) with (lobatto 2 1); [apply (res_out_node g1 5 1); lia|].
    unfold g1, g2, lobatto. cbn. replace (1 * PI / 1) with PI by field. rewrite cos_PI. ring. }
  specialize (Q [0; 0]%nat). rewrite y00, y11, Sh in Q. specialize (Q ltac:(cbn; lia)). lra.
Qed.
Print Assumptions C20_resnet_refuted.

(** *** hp-refinement of discontinuous networks *)
Lemma firsts_prefix L : forall memo, exists N, firsts memo L = memo ++ N /\ incl N L.
Proof.
  induction L as [|k L IH]; intros memo; [exists []; cbn; rewrite app_nil_r; split; [reflexivity|intros ? []]|]. cbn [firsts].
  destruct (mem k memo).
  - destruct (IH memo) as (N & E & I). exists N. split; auto. intros j Hj. right. auto.
  - destruct (IH (memo ++ [k])) as (N & E & I). exists (k :: N). split; [rewrite E, <- app_assoc; reflexivity|].
    intros j [<-|Hj]; [now left|right; auto].
Qed.
Lemma set_obj_same h j : (j < length h)%nat -> set_obj h j (get h j) = h.
Proof.
  intros H. unfold set_obj, get. revert j H. induction h as [|o h IH]; intros j H; [cbn in H; lia|].
  destruct j; [reflexivity|]. cbn [firstn app nth Nat.add skipn]. f_equal. apply IH. cbn in H. lia.
Qed.
Lemma refine_discontinuous_raises li lo : held li -> held lo -> pw_cls li = PiecewiseDiscontinuousPolynomial ->
  pw_refine li lo = (pw_w lo, Some ValueError).
Proof.
  intros Hi Ho Ec. unfold pw_refine. rewrite Ec. cbn [is_continuous_class]. unfold refine_discontinuous_polynomial_layer.
  pose proof (held_wf li Hi) as (_ & _ & I1 & O1 & _ & Sw). pose proof (held_wf lo Ho) as (_ & S1 & _).
  unfold dim. rewrite Sw. cbn [nth].
  apply mfor_fail; [lia|]. apply mfor_fail; [lia|]. apply mfor_fail; [lia|]. reflexivity.
Qed.

(** A network whose input layer is discontinuous (or switch_discontinuous) cannot be hp-refined; no weight is changed. *)
Theorem C21_discontinuous_rejected : forall g1 g2 a a' h0 h1 h2 h net1 net2 ni nh no ni' nh' no' si sh so si' sh' so',
  wf_heap h0 -> plain_mlp a ni nh no si sh so -> plain_mlp a' ni' nh' no' si' sh' so' -> same_architecture h0 a a' ->
  or_string (ma_layer_type_in a) (ma_layer_type a) = "discontinuous"%string \/
  or_string (ma_layer_type_in a) (ma_layer_type a) = "switch_discontinuous"%string ->
  HighOrderMLP g1 a h0 = Ok (net1, h1) -> HighOrderMLP g2 a' h1 = Ok (net2, h2) -> retrained h2 h ->
  hp_refine_high_order_mlp net1 net2 h = (h, Some ValueError).
Proof.
  intros g1 g2 a a' h0 h1 h2 h net1 net2 ni nh no ni' nh' no' si sh so si' sh' so' W P P' SA T H1 H2 Rt.
  set (nl1 := match ma_non_linearity a with Some k => k | None => 0%nat end).
  set (nl2 := match ma_non_linearity a' with Some k => k | None => 0%nat end).
  pose proof (sa_act _ _ _ SA) as Act.
  destruct (mlp_spec g1 a ni nh no si sh so h0 nl1) as (n1 & e1 & dl1 & k11 & k12 & m1 & L1 & E1 & G1 & Q1 & B1 & V1 & Ln1 & Lm1 & X1 & D1); auto.
  { intros k Ek. unfold nl1. rewrite Ek in *. destruct (ma_non_linearity a'); [|contradiction].
    destruct Act as (A1 & A2 & f & ps & ps' & A3 & A4 & A5). split; auto. split; auto. eauto. }
  rewrite E1 in H1. injection H1 as -> <-.
  assert (W1 : wf_heap (h0 ++ e1)) by apply B1.
  destruct (mlp_spec g2 a' ni' nh' no' si' sh' so' (h0 ++ e1) nl2) as (n2 & e2 & dl2 & k21 & k22 & m2 & L2 & E2 & G2 & Q2 & B2 & V2 & Ln2 & Lm2 & X2 & D2); auto.
  { intros k Ek. unfold nl2. rewrite Ek in *. destruct (ma_non_linearity a); [|contradiction].
    destruct Act as (A1 & A2 & f & ps & ps' & A3 & A4 & A5). split; auto. split; [rewrite app_length; lia|]. rewrite get_app_l by auto. eauto. }
  rewrite E2 in H2. injection H2 as -> <-.
  set (h2 := (h0 ++ e1) ++ e2) in *.
  assert (Wf2 : wf_heap h2) by apply B2.
  assert (Wf : wf_heap h) by now apply (retrained_wf h2).
  assert (Len : length h = length h2) by apply Rt.
  assert (Same : forall k o, get h2 k = o -> (k < length h2)%nat -> match o with OSequential _ | OMLP _ _ _ _ | OModule _ _ => True | _ => False end -> get h k = o).
  { intros k o Ek Lk Ho. pose proof (retrained_same h2 h k Rt Lk) as S. rewrite Ek in S. destruct o; try contradiction; exact S. }
  assert (L1' : (length (h0 ++ e1) <= length h2)%nat) by (unfold h2; rewrite (app_length (h0 ++ e1)); lia).
  assert (B1' : built (length h0) nl1 dl1 h L1 (mlp_slots a ni nh no si sh so)).
  { apply (built_retrained _ _ _ h2); auto. unfold h2. apply built_app; auto. }
  assert (B2' : built (length (h0 ++ e1)) nl2 dl2 h L2 (mlp_slots a' ni' nh' no' si' sh' so')) by (apply (built_retrained _ _ _ h2); auto).
  assert (G1' : get h net1 = OMLP dl1 k11 k12 m1) by (apply Same; [unfold h2; now rewrite get_app_l|lia|auto]).
  assert (Q1' : get h m1 = OSequential L1) by (apply Same; [unfold h2; now rewrite get_app_l|lia|auto]).
  assert (G2' : get h net2 = OMLP dl2 k21 k22 m2) by (apply Same; auto).
  assert (Q2' : get h m2 = OSequential L2) by (apply Same; auto).
  pose proof (b_desc _ _ _ _ _ _ B1') as F1. pose proof (b_desc _ _ _ _ _ _ B2') as F2.
  unfold mlp_slots in F1, F2. cbn [app] in F1, F2.
  inversion F1 as [|i s1 L1t S1t Di F1t EL1 ES1]. inversion F2 as [|j s2 L2t S2t Dj F2t EL2 ES2]. clear F1t F2t ES1 ES2.
  destruct (firsts_prefix L1t [m1; i]) as (N1 & FN1 & IN1). destruct (firsts_prefix L2t [m2; j]) as (N2 & FN2 & IN2).
  assert (Y1 : layers_of h net1 = Ok (i :: N1)).
  { apply (layers_firsts h net1 dl1 k11 k12 m1 L1); auto; try lia.
    - intros k Hk. exact (built_childless _ _ _ _ _ _ k B1' Hk).
    - rewrite <- EL1 in *. cbn [firsts mem existsb]. destruct (Nat.eqb_spec i m1) as [->|_]; [exfalso; apply X1; now left|]. exact FN1.
    - rewrite <- EL1. intros k [<-|Hk]; [now left|right; auto]. }
  assert (Y2 : layers_of h net2 = Ok (j :: N2)).
  { apply (layers_firsts h net2 dl2 k21 k22 m2 L2); auto; try lia.
    - intros k Hk. exact (built_childless _ _ _ _ _ _ k B2' Hk).
    - rewrite <- EL2 in *. cbn [firsts mem existsb]. destruct (Nat.eqb_spec j m2) as [->|_]; [exfalso; apply X2; now left|]. exact FN2.
    - rewrite <- EL2. intros k [<-|Hk]; [now left|right; auto]. }
  unfold hp_refine_high_order_mlp, copy_network. rewrite Y1, Y2. cbn [mbind combine mfold fst snd].
  rewrite (sa_type_in _ _ _ SA) in Dj.
  assert (One : forall p q c c', is_pw h p c -> is_pw h q c' -> c_cls c = PiecewiseDiscontinuousPolynomial ->
     forall f, obj_copy pw_refine (S f) p q h = (h, Some ValueError)).
  { intros p q c c' Pp Pq Ec f. pose proof (is_pw_lt _ _ _ Pq) as Lq. destruct Pp as (l & El & Hl & Cl), Pq as (l' & El' & Hl' & _).
    cbn [obj_copy]. rewrite El, El'. rewrite refine_discontinuous_raises by (auto; rewrite <- Cl in Ec; exact Ec).
    replace (OPiecewise (with_w l' (pw_w l'))) with (get h q) by (rewrite El'; destruct l'; reflexivity). now rewrite set_obj_same. }
  destruct Di as (_ & Di), Dj as (_ & Dj). destruct T as [T|T]; rewrite T in Di, Dj; cbn in Di, Dj.
  - pose proof Di as (l & El & _). rewrite El. cbn [has_refine]. now rewrite (One _ _ _ _ Di Dj eq_refl).
  - destruct Di as (I & O & ls & El & Fl), Dj as (I' & O' & ls' & El' & Fl'). rewrite El. cbn [has_refine obj_copy]. rewrite El, El'.
    inversion Fl as [|p ? ? ? Pp]; subst. inversion Fl' as [|q ? ? ? Pq]; subst. cbn [combine mfold fst snd].
    destruct i as [|f]; [exfalso; assert (p < 0)%nat; [|lia]; apply (Wf 0%nat); [destruct h; [discriminate|cbn; lia]|rewrite El; now left]|].
    now rewrite (One _ _ _ _ Pp Pq eq_refl).
Qed.
Print Assumptions C21_discontinuous_rejected.

Example C21_discontinuous_case : exists net1 h1 net2 h2,
  HighOrderMLP (fun k _ => INR k) (demo_args "switch_discontinuous" "continuous" 2 3) demo_heap = Ok (net1, h1) /\
  HighOrderMLP (fun k _ => - INR k) (demo_args "switch_discontinuous" "continuous" 4 6) h1 = Ok (net2, h2) /\
  hp_refine_high_order_mlp net1 net2 h2 = (h2, Some ValueError).
Proof.
  assert (T : refinable_type "continuous") by now left.
  assert (Ti : refinable_type "switch_discontinuous") by (right; right; now right).
  assert (P1 := demo_plain "switch_discontinuous" "continuous" 2 3 Ti T ltac:(lia) ltac:(lia)).
  assert (P2 := demo_plain "switch_discontinuous" "continuous" 4 6 Ti T ltac:(lia) ltac:(lia)).
  destruct (mlp_spec (fun k _ => INR k) _ _ _ _ _ _ _ demo_heap 0%nat P1 demo_heap_wf) as (n1 & e1 & ? & ? & ? & ? & ? & E1 & _ & _ & B1 & _).
  { intros k Ek. injection Ek as <-. cbn. split; auto. split; [lia|]. eexists _, _. reflexivity. }
  destruct (mlp_spec (fun k _ => - INR k) _ _ _ _ _ _ _ (demo_heap ++ e1) 0%nat P2) as (n2 & e2 & ? & ? & ? & ? & ? & E2 & _ & _ & B2 & _).
  { apply B1. }
  { intros k Ek. injection Ek as <-. cbn. split; auto. split; [lia|]. eexists _, _. reflexivity. }
  exists n1, (demo_heap ++ e1), n2, ((demo_heap ++ e1) ++ e2). split; auto. split; auto.
  eapply C21_discontinuous_rejected; [exact demo_heap_wf|exact P1|exact P2|apply demo_same|now right|exact E1|exact E2|apply retrained_refl].
Qed.
