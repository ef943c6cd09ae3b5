(** * The networks of examples/function_example.py (C97). *)
From Coq Require Import String Reals Lra ZArith List Lia Bool Arith Psatz.
From Verif Require Import Spec Tensor Utils LagrangePolynomial Basis PolynomialLayers Refine ProductLayer LagrangeND
  Layers Networks Examples Observe ObserveNet SumFacts TensorFacts LagrangeFacts LayerFacts LayerProofs HeapFacts NetFacts AttentionFacts
  SegmentFacts Prop_Layers Prop_Product Prop_Approx NetTypes Prop_Xor WeierstrassFacts Prop_Series.
Import ListNotations.
Local Open Scope R_scope.

(** The network [m] in heap [h] maps a batch of numbers through [F]. *)
Definition computes (h : heap) (m : function_net) (F : R -> R) : Prop := forall x B, shape x = [B; 1%nat] -> (1 <= B)%nat ->
  exists y, function_forward h m x = Ok y /\ shape y = [B; 1%nat] /\ forall b, (b < B)%nat -> at_ y [b; 0%nat] = F (at_ x [b; 0%nat]).

(** ** Construction and shapes *)
Lemma flat_length2 g t n I O seg per sc ro ini : flat_layer t n seg ->
  high_order_fc_layers g t (mkArgs n I O seg (Some 2) None per sc ro ini) = high_order_fc_layers g t (mkArgs n I O seg None None per sc ro ini).
Proof.
  intros [F|[(F & k & -> & _)|(F & k & s & -> & -> & _)]]; cbn in F; intuition (subst; reflexivity).
Qed.
Lemma view_column (x : tensor R) B : shape x = [B; 1%nat] -> (1 <= B)%nat ->
  exists z, view_infer [nth 0 (shape x) 0%nat] [] x = Ok z /\ shape z = [B; 1%nat] /\ forall b, (b < B)%nat -> at_ z [b; 0%nat] = at_ x [b; 0%nat].
Proof.
  intros Hx HB. destruct (view_infer_ok x [B] [] 1) as (z & Ez & Sz & Vz); [cbn; lia|unfold numel; rewrite Hx; cbn; lia|].
  exists z. rewrite Hx. split; [exact Ez|]. split; [exact Sz|]. intros b Hb. apply Vz; rewrite Hx; cbn; lia || reflexivity.
Qed.
Lemma computes_rowwise h m f : rowwise 1 1 f -> (forall x, function_forward h m x = (z <- view_infer [nth 0 (shape x) 0%nat] [] x ;; f z)) -> exists F, computes h m F.
Proof.
  intros (F & Ext & HF) E. exists (fun v => F (fun _ => v) 0%nat). intros x B Hx HB. rewrite E.
  destruct (view_column x B Hx HB) as (z & -> & Sz & Vz). cbn [rbind]. destruct (HF z B Sz) as (y & -> & Sy & Vy).
  exists y. do 2 (split; [auto|]). intros b Hb. rewrite Vy by lia. apply Ext; [|lia]. intros i Hi. unfold row. replace i with 0%nat by lia. now apply Vz.
Qed.
Lemma relu_rowwise W : rowwise W W (fun x => Ok (relu x)).
Proof.
  exists (fun v o => Rmax 0 (v o)). split; [intros u v H o Ho; now rewrite H|]. intros x B Hx. exists (relu x). split; [reflexivity|]. split; [exact Hx|]. reflexivity.
Qed.
Lemma rowwise_comp W W1 W2 f g : rowwise W W1 f -> rowwise W1 W2 g -> rowwise W W2 (fun x => y <- f x ;; g y).
Proof. intros A B. now apply (good_comp true W W1 W2 f g). Qed.

(** Every choice of the function argument that gives a network gives one that maps each number of the batch by a function of that
    number alone, when built and after any training. *)
Theorem C97_network : forall g n s t per h0, wf_heap h0 -> (1 <= n)%nat -> flat_layer t (Int n) (Some (Int s)) \/ t = "standard"%string ->
  exists m h1, new_function g n s t per h0 = Ok (m, h1) /\ forall h, retrained h1 h -> exists F, computes h m F.
Proof.
  intros g n s t per h0 W0 Hn F. unfold new_function.
  destruct (String.eqb_spec t "standard") as [->|Ns].
  - unfold Linear, mthen, alloc, mret.
    set (a := OLinear _ _). set (b := OLinear _ _). set (c := OLinear _ _).
    assert (Wa : wf_heap (h0 ++ [a])) by (apply wf_snoc; auto; now cbn). assert (Wb : wf_heap ((h0 ++ [a]) ++ [b])) by (apply wf_snoc; auto; now cbn).
    assert (Wc : wf_heap (((h0 ++ [a]) ++ [b]) ++ [c])) by (apply wf_snoc; auto; now cbn).
    eexists _, _. split; [reflexivity|]. intros h Rt. apply later_retrained in Rt; auto.
    assert (Ta : typedq true (((h0 ++ [a]) ++ [b]) ++ [c]) (length h0) 1 n).
    { eapply typed_later; [|eapply typed_later; [|eapply (typed_linear (h0 ++ [a]) (length h0) _ _ 1 n); [apply get_last|rewrite app_length; cbn; lia|reflexivity]]]; apply later_app; auto. }
    assert (Tb : typedq true (((h0 ++ [a]) ++ [b]) ++ [c]) (length (h0 ++ [a])) n n).
    { eapply typed_later; [|eapply (typed_linear ((h0 ++ [a]) ++ [b]) _ _ _ n n); [apply get_last|rewrite !app_length; cbn; lia|reflexivity]]; apply later_app; auto. }
    assert (Tc : typedq true (((h0 ++ [a]) ++ [b]) ++ [c]) (length ((h0 ++ [a]) ++ [b])) n 1).
    { eapply (typed_linear _ _ _ _ n 1); [apply get_last|rewrite !app_length; cbn; lia|reflexivity]. }
    eapply computes_rowwise; [|reflexivity].
    apply (rowwise_comp 1 n 1 (call h (length h0))); [now apply Ta|].
    apply (rowwise_comp n n 1 (fun x => Ok (relu x)) (fun x => y <- call h (length (h0 ++ [a])) x ;; call h (length ((h0 ++ [a]) ++ [b])) (relu y))); [apply relu_rowwise|].
    apply (rowwise_comp n n 1 (call h (length (h0 ++ [a])))); [now apply Tb|].
    apply (rowwise_comp n n 1 (fun x => Ok (relu x)) (call h (length ((h0 ++ [a]) ++ [b])))); [apply relu_rowwise|now apply Tc].
  - destruct F as [F|F]; [|congruence]. destruct (String.eqb_spec t "product") as [->|Np].
    + destruct (makes_flatq true g h0 "product" (Int n) 1 n None None 2 false "" W0 ltac:(left; cbn; tauto) ltac:(lia) Hn) as (k1 & e1 & E1 & W1 & T1 & _).
      unfold mthen, mret. rewrite E1.
      destruct (makes_flatq true g (h0 ++ e1) "product" (Int n) n 1 None None 2 false "" W1 ltac:(left; cbn; tauto) Hn ltac:(lia)) as (k2 & e2 & E2 & W2 & T2 & _).
      rewrite E2. eexists _, _. split; [reflexivity|]. intros h Rt. eapply computes_rowwise; [|reflexivity].
      apply (run_good true ((h0 ++ e1) ++ e2) h 1 [k1; k2] 1); [|now apply later_retrained].
      econstructor; [|econstructor; [exact T2|constructor]]. eapply typed_later; [|exact T1]. apply later_app; auto.
    + rewrite flat_length2 by exact F.
      destruct (makes_flatq true g h0 t (Int n) 1 1 (Some (Int s)) per 2 false "" W0 F ltac:(lia) ltac:(lia)) as (k1 & e1 & E1 & W1 & T1 & _).
      unfold mthen, mret. rewrite E1. eexists _, _. split; [reflexivity|]. intros h Rt. eapply computes_rowwise; [|reflexivity].
      apply T1. now apply later_retrained.
Qed.
Print Assumptions C97_network.

(** ** The single layers *)
Lemma retrained_one h0 o o' : reweighted o o' -> retrained (h0 ++ [o]) (h0 ++ [o']).
Proof.
  intros R. split; [now rewrite !app_length|]. intros i Hi. rewrite app_length in Hi. cbn in Hi.
  destruct (Nat.lt_ge_cases i (length h0)) as [L|L]; [rewrite !get_app_l by auto; constructor|]. replace i with (length h0) by lia. now rewrite !get_last.
Qed.
Lemma layer_call h0 o x : wf_heap h0 -> refs o = [] -> forall y, obj_forward (call (h0 ++ [o])) o x = y -> call (h0 ++ [o]) (length h0) x = y.
Proof. intros W R y E. rewrite call_unfold, get_last; auto; [apply wf_snoc; auto; rewrite R; now cbn|rewrite app_length; cbn; lia]. Qed.

Definition function_class (t : string) (c : pw_class) : Prop :=
  t = "continuous"%string /\ c = PiecewisePolynomial \/ t = "discontinuous"%string /\ c = PiecewiseDiscontinuousPolynomial.
Lemma function_built g n s t c per h : function_class t c -> exists d,
  new_function g n s t per h = Ok (FnLayer (length h), h ++ [OPiecewise (new_piecewise c n 1 1 s 2 1 per d)]).
Proof. intros [(-> & ->)|(-> & ->)]; eexists; reflexivity. Qed.
Lemma piecewise_computes h0 l (F : R -> R) : wf_heap h0 -> held l -> pw_in l = 1%nat -> pw_out l = 1%nat ->
  (forall v, layer_out l v 0 = F (v 0%nat)) -> computes (h0 ++ [OPiecewise l]) (FnLayer (length h0)) F.
Proof.
  intros W0 H HI HO HF x B Hx HB. unfold function_forward. destruct (view_column x B Hx HB) as (z & -> & Sz & Vz). cbn [rbind].
  destruct (forward_rows l z B H ltac:(congruence)) as (y & Ey & Sy & Vy). exists y. rewrite HO in *.
  split; [now apply layer_call|]. split; [exact Sy|]. intros b Hb. rewrite Vy by lia. rewrite HF. unfold row. now rewrite Vz.
Qed.

(** ** The target *)
Lemma simple_even x : simple_func (- x) = simple_func x.
Proof. unfold simple_func. now rewrite Rabs_Ropp. Qed.
Lemma simple_continuous : continuity simple_func.
Proof.
  intros x. unfold simple_func. apply (continuity_pt_scal (fun x => cos (15/10 * (314159/100000) * 1 / (Rabs x + 25/100)))).
  apply (continuity_pt_comp (fun x => 15/10 * (314159/100000) * 1 / (Rabs x + 25/100)) cos); [|apply continuity_cos].
  apply (continuity_pt_div (fun _ => 15/10 * (314159/100000) * 1) (fun x => Rabs x + 25/100)); [apply continuity_pt_const; congruence| |].
  - apply (continuity_pt_plus Rabs (fun _ => 25/100)); [apply Rcontinuity_abs|apply continuity_pt_const; congruence].
  - pose proof (Rabs_pos x). lra.
Qed.
Lemma simple_on a b : continuous_on a b simple_func.
Proof.
  intros x eps Hx He. destruct (simple_continuous x eps He) as (d & Hd & P). exists d. split; [exact Hd|]. intros y _ Hy.
  destruct (Req_dec x y) as [<-|N]; [rewrite Rminus_eq_0, Rabs_R0; exact He|]. apply P. split; [split; [exact Logic.I|exact N]|exact Hy].
Qed.
Lemma simple_reaches k : (k = 2 \/ k = 3)%Z -> exists x, 0 <= x <= 1 /\ simple_func x = 1/2 * cos (IZR k * PI).
Proof.
  intros Hk. pose proof PI_4 as P4. pose proof PI2_3_2 as P3. assert (P : 3 < PI) by lra. clear P3.
  assert (K : 2 <= IZR k <= 3) by (destruct Hk as [-> | ->]; lra).
  set (q := IZR k * PI). assert (Q : 6 < q <= 12) by (unfold q; destruct Hk as [-> | ->]; lra). exists (15/10 * (314159/100000) / q - 25/100).
  assert (I1 : 15/10 * (314159/100000) / q * q = 15/10 * (314159/100000)) by (field; lra).
  assert (B : 0 <= 15/10 * (314159/100000) / q - 25/100 <= 1) by nra. split; [exact B|].
  unfold simple_func. rewrite (Rabs_pos_eq (15/10 * (314159/100000) / q - 25/100)) by lra. f_equal. f_equal. field. lra.
Qed.
Lemma simple_extremes : (exists x, -1 <= x <= 1 /\ simple_func x = 1/2) /\ (exists x, -1 <= x <= 1 /\ simple_func x = - (1/2)).
Proof.
  split.
  - destruct (simple_reaches 2) as (x & Hx & E); [now left|]. exists x. split; [lra|]. rewrite E, cos_2PI. lra.
  - destruct (simple_reaches 3) as (x & Hx & E); [now right|]. exists x. split; [lra|]. rewrite E. replace (3 * PI) with (PI + 2 * PI) by ring.
    rewrite cos_plus, cos_2PI, sin_2PI, cos_PI, sin_PI. lra.
Qed.

(** The first network of modelSetC, continuous with n = 1, is a constant whatever its weights, number of segments and periodicity,
    so that it is off by at least 1/2, the amplitude of the target, somewhere. *)
Theorem C97_one_node_constant : forall g s per h0, wf_heap h0 -> (1 <= s)%nat -> exists m h1,
  new_function g 1 s "continuous" per h0 = Ok (m, h1) /\
  (forall h, retrained h1 h -> exists c, computes h m (fun _ => c) /\ exists x, -1 <= x <= 1 /\ 1/2 <= Rabs (c - simple_func x)).
Proof.
  intros g s per h0 W0 Hs. destruct (function_built g 1 s "continuous" PiecewisePolynomial per h0) as (d & E); [left; auto|].
  eexists _, _. split; [exact E|]. intros h Rt.
  assert (exists w, get h (length h0) = OPiecewise (with_w (new_piecewise PiecewisePolynomial 1 1 1 s 2 1 per d) w) /\ shape w = [1; 1; 1]%nat) as (w & Gw & Sw).
  { destruct Rt as (_ & R). specialize (R (length h0) ltac:(rewrite app_length; cbn; lia)). rewrite get_last in R. apply reweighted_pw in R.
    destruct R as (w & Ew & Sw). exists w. split; auto. }
  set (l := with_w _ w) in Gw.
  assert (Hl : held l) by (apply with_w_held; [apply new_held; lia|exact Sw]).
  assert (W : wf_heap h) by (apply (retrained_wf _ _ Rt); apply wf_snoc; auto; now cbn).
  exists (at_ w [0; 0; 0]%nat). split.
  - intros x B Hx HB. unfold function_forward. destruct (view_column x B Hx HB) as (z & -> & Sz & Vz). cbn [rbind].
    destruct (forward_rows l z B Hl Sz) as (y & Ey & Sy & Vy). exists y. split; [|split; [exact Sy|]].
    + rewrite call_unfold; auto; [rewrite Gw; exact Ey|]. destruct Rt as (L & _). rewrite L, app_length. cbn. lia.
    + intros b Hb. rewrite Vy by (auto; cbn; lia). rewrite layer_out_sum; [|auto|now left|cbn; lia]. cbn [rsum pw_in l with_w new_piecewise].
      rewrite Rplus_0_l. apply link_const; auto. intros p Hp. cbn in Hp. replace p with 0%nat by lia. reflexivity.
  - destruct simple_extremes as ((a & Ha & Ea) & (b & Hb & Eb)). destruct (Rle_dec (at_ w [0; 0; 0]%nat) 0).
    + exists a. split; [exact Ha|]. rewrite Ea, <- Rabs_Ropp, Rabs_pos_eq; lra.
    + exists b. split; [exact Hb|]. rewrite Eb, Rabs_pos_eq; lra.
Qed.
Print Assumptions C97_one_node_constant.

(** Piecewise layers reach every accuracy when given enough segments: continuous ones from two nodes on. *)
Theorem C97_segments : forall g n t eps h0, wf_heap h0 -> (1 <= n)%nat -> t = "discontinuous"%string \/ t = "continuous"%string /\ (2 <= n)%nat -> 0 < eps ->
  exists s0, forall s, (s0 <= s)%nat -> exists m h1 h F, new_function g n s t None h0 = Ok (m, h1) /\ retrained h1 h /\ computes h m F /\
    forall x, -1 <= x <= 1 -> Rabs (F x - simple_func x) <= eps.
Proof.
  intros g n t eps h0 W0 Hn Ht He.
  destruct (C80_converges n 1 (fun _ => simple_func) eps) as (s0 & Q); [intros; apply simple_continuous|exact He|].
  exists (S s0). intros s Hs.
  assert (exists c, function_class t c /\ (c = PiecewisePolynomial -> 2 <= n)%nat /\ sum_class c) as (c & Fc & Cn & Sc).
  { destruct Ht as [->|(-> & H)]; [exists PiecewiseDiscontinuousPolynomial|exists PiecewisePolynomial]; (split; [unfold function_class; tauto|]); split; try discriminate; try tauto; [now right|now left]. }
  destruct (function_built g n s t c None h0 Fc) as (d & E).
  destruct (C80_sampling_layers_exist c n 1 1 s (fun _ _ => simple_func) Sc Hn Cn ltac:(lia) ltac:(lia) ltac:(lia)) as (l0 & H0 & L0 & P0 & C0 & N0 & I0 & O0 & S0 & Sam).
  set (l := with_w (new_piecewise c n 1 1 s 2 1 None d) (pw_w l0)).
  assert (Sw : shape (pw_w l0) = shape (pw_w (new_piecewise c n 1 1 s 2 1 None d))).
  { destruct (held_wf l0 H0) as (_ & _ & _ & _ & _ & Hw). rewrite Hw, C0, N0, I0, O0, S0. reflexivity. }
  assert (Hl : held l) by (apply with_w_held; [apply new_held; lia|exact Sw]).
  eexists _, _, (h0 ++ [OPiecewise l]), (fun v => layer_out l (fun _ => v) 0). split; [exact E|]. split; [apply retrained_one; now constructor|]. split.
  - apply piecewise_computes; auto. intros v. rewrite !layer_out_sum by (exact Hl || exact Sc || (cbn; lia)). cbn [pw_in l with_w new_piecewise rsum]. reflexivity.
  - intros x Hx. pose proof (Q l 0%nat (fun _ => x) Hl eq_refl eq_refl Sc ltac:(cbn; lia) eq_refl eq_refl) as A. cbn [rsum] in A.
    rewrite Rplus_0_l in A. apply A; [cbn; lia| |auto]. intros i s' k Hi Hs' Hk. specialize (Sam 0%nat ltac:(lia) i s' k). rewrite C0, N0, I0, S0 in Sam. cbn in *. now apply Sam.
Qed.
Print Assumptions C97_segments.

(** Polynomial and Fourier layers reach every accuracy when given enough terms (the target takes the same value at -1 and 1). *)
Lemma func_computes h0 l w (F : R -> R) : wf_heap h0 -> (forall x B, shape x = [B; 1%nat] -> exists y, Function_forward (with_fw l w) x = Ok y /\ shape y = [B; 1%nat] /\
    forall b, (b < B)%nat -> at_ y [b; 0%nat] = F (at_ x [b; 0%nat])) -> computes (h0 ++ [OFunc (with_fw l w)]) (FnLayer (length h0)) F.
Proof.
  intros W0 H x B Hx HB. unfold function_forward. destruct (view_column x B Hx HB) as (z & -> & Sz & Vz). cbn [rbind].
  destruct (H z B Sz) as (y & Ey & Sy & Vy). exists y. split; [now apply layer_call|]. split; [exact Sy|]. intros b Hb. rewrite Vy by auto. now rewrite Vz.
Qed.
Theorem C97_terms : forall g s t eps h0, wf_heap h0 -> In t ["polynomial"; "fourier"]%string -> 0 < eps ->
  exists n0, forall n, (n0 <= n)%nat -> exists m h1 h F, new_function g n s t None h0 = Ok (m, h1) /\ retrained h1 h /\ computes h m F /\
    forall x, -1 <= x <= 1 -> Rabs (F x - simple_func x) < eps.
Proof.
  intros g s t eps h0 W0 Ht He.
  assert (G : forall n l w, (1 <= n)%nat -> f_n l = n -> shape (f_w l) = [1; 1; n]%nat -> shape w = [1; 1; n]%nat -> f_periodicity l = None ->
    new_function g n s t None h0 = Ok (FnLayer (length h0), h0 ++ [OFunc l]) -> approximates l w 1 1 (-1) 1 eps (fun _ _ => simple_func) ->
    exists m h1 h F, new_function g n s t None h0 = Ok (m, h1) /\ retrained h1 h /\ computes h m F /\ forall x, -1 <= x <= 1 -> Rabs (F x - simple_func x) < eps).
  { intros n l w Hn Nl Sl Sw Pl E A.
    set (F := fun v => rsum n (fun k => LagrangePolynomial.call (f_basis l) v k * at_ w [0%nat; 0%nat; k])).
    assert (V : forall x B, shape x = [B; 1%nat] -> exists y, Function_forward (with_fw l w) x = Ok y /\ shape y = [B; 1%nat] /\
      forall b, (b < B)%nat -> at_ y [b; 0%nat] = F (at_ x [b; 0%nat])).
    { intros x B Hx. unfold with_fw. destruct (function_spec (f_n l) (f_basis l) (f_periodicity l) w x B 1 1 ltac:(lia) ltac:(congruence) Hx) as (y & Ey & Sy & Vy).
      exists y. do 2 (split; [auto|]). intros b Hb. rewrite Vy by lia. cbn [rsum]. rewrite Rplus_0_l, Pl, Nl. reflexivity. }
    eexists _, _, (h0 ++ [OFunc (with_fw l w)]), F. split; [exact E|]. split; [apply retrained_one; constructor; congruence|].
    split; [now apply func_computes|]. intros x Hx.
    destruct (A (mkT [1; 1]%nat (fun _ => x)) 1%nat eq_refl ltac:(auto)) as (y & Ey & Sy & Vy).
    destruct (V (mkT [1; 1]%nat (fun _ => x)) 1%nat eq_refl) as (y' & Ey' & _ & Vy'). rewrite Ey in Ey'. injection Ey' as <-.
    specialize (Vy 0%nat 0%nat ltac:(lia) ltac:(lia)). rewrite Vy' in Vy by lia. cbn [rsum at_] in Vy. now rewrite Rplus_0_l in Vy. }
  cbn in Ht. destruct Ht as [<-|[<-|[]]].
  - destruct (C96_polynomial_converges 1 1 1 (fun _ _ => simple_func) eps) as (n0 & Q); [lra|exact He|intros; apply simple_on|].
    exists (S n0). intros n Hn. destruct (Q n 2 1 (fun o i => g (length h0) [o; i]) ltac:(lia) ltac:(lra)) as (w & Sw & A).
    eapply (G n _ w); [lia| | |exact Sw| |reflexivity|]; try reflexivity; [destruct n as [|[|n]]; [lia|reflexivity..]|].
    replace (-1) with (- (1)) by ring. exact A.
  - destruct (C96_fourier_converges 1 1 2 (fun _ _ => simple_func) eps) as (n0 & Q); [lra|exact He|intros; split; [apply simple_on|apply simple_even]|].
    exists (S n0). intros n Hn. destruct (Q n 1 None (fun o i => g (length h0) [o; i]) ltac:(lia)) as (w & Sw & A).
    eapply (G n _ w); [lia| | |exact Sw| |reflexivity|]; try reflexivity.
    replace (2 / 2) with 1 in A by field. replace (- (1)) with (-1) in A by ring. exact A.
Qed.
Print Assumptions C97_terms.

(** The product network computes the functions Π_k (a_k x + b_k) + c, n factors, and no others: polynomials of degree at most n. *)
Lemma reweighted_product l b0 o : reweighted (OProduct l) o -> pr_bias l = Some b0 -> exists w b, shape w = shape (pr_weight l) /\ shape b = shape b0 /\
  o = OProduct (mkProduct (pr_in l) (pr_out l) w (Some b) (pr_alpha l) (pr_periodicity l)).
Proof.
  intros R Hb. inversion R as [| | | |l0 w b Hw Hs| |]; subst.
  - rewrite Hb in Hs. destruct b as [b|]; [|destruct Hs]. eauto.
  - exists (pr_weight l), b0. do 2 (split; [reflexivity|]). rewrite <- Hb. now destruct l.
Qed.
Lemma product_pair (h0 : heap) n w1 b1 w2 b2 h : wf_heap h -> (1 <= n)%nat -> (S (length h0) < length h)%nat ->
  get h (length h0) = OProduct (mkProduct 1 n w1 (Some b1) 1 None) -> get h (S (length h0)) = OProduct (mkProduct n 1 w2 (Some b2) 1 None) ->
  shape w1 = [n; 1%nat] -> shape b1 = [n] -> shape w2 = [1%nat; n] -> shape b2 = [1%nat] ->
  computes h (FnProduct (length h0) (S (length h0))) (fun x =>
    rprod n (fun k => at_ w2 [0%nat; k] * at_ w1 [k; 0%nat] * x + (at_ w2 [0%nat; k] * at_ b1 [k] + 1)) + (at_ b2 [0%nat] - 1)).
Proof.
  intros W Hn L G1 G2 S1 T1 S2 T2 x B Hx HB. unfold function_forward. destruct (view_column x B Hx HB) as (z & -> & Sz & Vz). cbn [rbind run].
  rewrite call_unfold, G1 by (auto; lia). cbn [obj_forward].
  destruct (product_spec (mkProduct 1 n w1 (Some b1) 1 None) z B S1 Sz b1 eq_refl T1) as (u & -> & Su & Vu). cbn [rbind].
  rewrite call_unfold, G2 by (auto; lia). cbn [obj_forward].
  destruct (product_spec (mkProduct n 1 w2 (Some b2) 1 None) u B S2 Su b2 eq_refl T2) as (y & -> & Sy & Vy). cbn [rbind].
  exists y. split; [reflexivity|]. split; [exact Sy|]. intros b Hb. rewrite Vy by (auto; cbn; lia). cbn [pr_in pr_out pr_weight pr_alpha pr_periodicity apply_periodicity].
  rewrite (rprod_ext n _ (fun k => at_ w2 [0%nat; k] * at_ w1 [k; 0%nat] * at_ x [b; 0%nat] + (at_ w2 [0%nat; k] * at_ b1 [k] + 1))); [ring|].
  intros k Hk. rewrite Vu by auto. cbn. rewrite Vz by auto. ring.
Qed.
Theorem C97_product : forall g n s per h0, wf_heap h0 -> (1 <= n)%nat -> exists m h1,
  new_function g n s "product" per h0 = Ok (m, h1) /\
  (forall h, retrained h1 h -> exists a b c, computes h m (fun x => rprod n (fun k => a k * x + b k) + c)) /\
  (forall a b c, exists h, retrained h1 h /\ computes h m (fun x => rprod n (fun k => a k * x + b k) + c)).
Proof.
  intros g n s per h0 W0 Hn. set (p1 := OProduct (new_product 1 n true 1 None (fun o i => g (length h0) [o; i]) (fun o => g (length h0) [o]))).
  set (p2 := OProduct (new_product n 1 true 1 None (fun o i => g (S (length h0)) [o; i]) (fun o => g (S (length h0)) [o]))).
  exists (FnProduct (length h0) (S (length h0))), (h0 ++ [p1; p2]). split.
  { unfold new_function. cbn -[length app]. rewrite <- app_assoc, app_length, Nat.add_1_r. reflexivity. }
  split.
  - intros h Rt. destruct (trained_pair h0 p1 p2 h W0 eq_refl eq_refl Rt) as (W & L & R1 & R2).
    pose proof (reweighted_product _ (mkT [n] (fun ix => g (length h0) [nth 0 ix 0%nat])) _ R1 eq_refl) as Q1.
    pose proof (reweighted_product _ (mkT [1%nat] (fun ix => g (S (length h0)) [nth 0 ix 0%nat])) _ R2 eq_refl) as Q2.
    destruct Q1 as (w1 & b1 & S1 & T1 & G1). destruct Q2 as (w2 & b2 & S2 & T2 & G2).
    eexists _, _, _. now apply (product_pair h0 n w1 b1 w2 b2 h W Hn L G1 G2).
  - intros a b c. set (w1 := mkT [n; 1%nat] (fun ix : index => a (nth 0 ix 0%nat))). set (b1 := mkT [n] (fun ix : index => b (nth 0 ix 0%nat) - 1)).
    set (w2 := mkT [1%nat; n] (fun ix : index => 1)). set (b2 := mkT [1%nat] (fun ix : index => c + 1)).
    set (q1 := OProduct (mkProduct 1 n w1 (Some b1) 1 None)). set (q2 := OProduct (mkProduct n 1 w2 (Some b2) 1 None)).
    exists (h0 ++ [q1; q2]). split.
    + split; [now rewrite !app_length|]. intros i Hi. destruct (Nat.lt_ge_cases i (length h0)) as [Li|Li]; [rewrite !get_app_l by auto; constructor|].
      replace i with (length h0 + (i - length h0))%nat by lia. rewrite !get_app_r. destruct (i - length h0)%nat as [|[|j]]; cbn [get nth].
      * apply (RwProduct (new_product 1 n true 1 None (fun o i => g (length h0) [o; i]) (fun o => g (length h0) [o])) w1 (Some b1)); reflexivity.
      * apply (RwProduct (new_product n 1 true 1 None (fun o i => g (S (length h0)) [o; i]) (fun o => g (S (length h0)) [o])) w2 (Some b2)); reflexivity.
      * constructor.
    + assert (W : wf_heap (h0 ++ [q1; q2])).
      { change [q1; q2] with ([q1] ++ [q2]). rewrite app_assoc. apply wf_snoc; [apply wf_snoc; auto|]; now cbn. }
      pose proof (product_pair h0 n w1 b1 w2 b2 (h0 ++ [q1; q2]) W Hn ltac:(rewrite app_length; cbn; lia) (proj1 (get_pair h0 q1 q2)) (proj2 (get_pair h0 q1 q2)) eq_refl eq_refl eq_refl eq_refl) as C.
      intros x B Hx HB. destruct (C x B Hx HB) as (y & Ey & Sy & Vy). exists y. do 2 (split; [auto|]). intros k Hk. rewrite Vy by auto. cbn [at_ w1 b1 w2 b2 nth].
      rewrite (rprod_ext n _ (fun k0 => a k0 * at_ x [k; 0%nat] + b k0)) by (intros; ring). ring.
Qed.
Print Assumptions C97_product.

(** The model sets of the example: continuous with n = 1 and 5 segments fails by 1/2; polynomials get within 1/1000 for some n. *)
Example C97_case : forall g, (exists m h1 c, new_function g 1 5 "continuous" None [] = Ok (m, h1) /\ computes h1 m (fun _ => c) /\ exists x, -1 <= x <= 1 /\ 1/2 <= Rabs (c - simple_func x)) /\
  (exists n m h1 h F, new_function g n 5 "polynomial" None [] = Ok (m, h1) /\ retrained h1 h /\ computes h m F /\ forall x, -1 <= x <= 1 -> Rabs (F x - simple_func x) < 1/1000).
Proof.
  intros g. assert (W : wf_heap []) by (intros i Hi; cbn in Hi; lia). split.
  - destruct (function_built g 1 5 "continuous" PiecewisePolynomial None []) as (d & E); [left; auto|].
    destruct (C97_one_node_constant g 5 None [] W ltac:(lia)) as (m & h1 & E' & H).
    rewrite E in E'. injection E' as <- <-. destruct (H ([] ++ [OPiecewise (new_piecewise PiecewisePolynomial 1 1 1 5 2 1 None d)])) as (c & H1 & H2); [split; [reflexivity|constructor]|]. eexists _, _, c. split; [exact E|]. split; assumption.
  - destruct (C97_terms g 5 "polynomial" (1/1000) [] W ltac:(cbn; tauto) ltac:(lra)) as (n0 & H). destruct (H n0 (le_n _)) as (m & h1 & h & F & H'). exists n0, m, h1, h, F. exact H'.
Qed.
