(** * A freshly built HighOrderMLP: constant output, untrained hidden layers (C85). *)
From Coq Require Import String Reals ZArith List Lia Lra Psatz Bool Arith.
From Verif Require Import Spec Tensor Utils LagrangePolynomial Basis PolynomialLayers ProductLayer LagrangeND Layers Networks Observe ObserveNet
  SumFacts TensorFacts LagrangeFacts LayerFacts SegmentFacts LayerProofs HeapFacts NetFacts NetTypes NetCopy Prop_Net Prop_Init.
Import ListNotations.
Local Open Scope R_scope.

(** ** What construction puts on the heap *)
Lemma mthen_inv {A B} (m : M A) (k : A -> M B) h r : mthen m k h = Ok r -> exists a h1, m h = Ok (a, h1) /\ k a h1 = Ok r.
Proof. unfold mthen. destruct (m h) as [[a h1]|e]; [eauto|discriminate]. Qed.

(** Every weight of a link is the number drawn for the link, divided by the number of inputs. *)
Definition as_drawn (g : rng) (k : nat) (o : obj) : Prop :=
  match o with
  | OPiecewise l => forall o i p, at_ (pw_w l) [o; i; p] = g k [o; i] / INR (pw_in l)
  | _ => True
  end.
(** All objects from position [a] on are as drawn. *)
Definition drawn_from (g : rng) (a : nat) (h : heap) : Prop := forall k, (a <= k < length h)%nat -> as_drawn g k (get h k).
Definition adds {A} (g : rng) (m : M A) : Prop := forall h x h', m h = Ok (x, h') -> exists e, h' = h ++ e /\ drawn_from g (length h) h'.

Lemma drawn_app g a h e : (a <= length h)%nat -> drawn_from g a h -> drawn_from g (length h) (h ++ e) -> drawn_from g a (h ++ e).
Proof.
  intros La D D' k Hk. destruct (Nat.lt_ge_cases k (length h)).
  - rewrite get_app_l by auto. apply D. lia.
  - apply D'. lia.
Qed.
Lemma adds_mret {A} g (x : A) : adds g (mret x).
Proof. intros h y h' E. injection E as <- <-. exists []. rewrite app_nil_r. split; auto. intros k Hk. lia. Qed.
Lemma adds_mraise {A} g e : adds (A := A) g (mraise e).
Proof. intros h y h' E. discriminate. Qed.
Lemma adds_mthen {A B} g (m : M A) (k : A -> M B) : adds g m -> (forall a, adds g (k a)) -> adds g (mthen m k).
Proof.
  intros Hm Hk h y h' E. destruct (mthen_inv m k h _ E) as (a & h1 & E1 & E2).
  destruct (Hm _ _ _ E1) as (e1 & -> & D1). destruct (Hk _ _ _ _ E2) as (e2 & -> & D2).
  exists (e1 ++ e2). rewrite <- app_assoc in *. split; auto. rewrite app_assoc. rewrite app_assoc in D2.
  apply drawn_app; auto. rewrite app_length. lia.
Qed.
Lemma adds_alloc g o : (forall k, as_drawn g k (o k)) -> adds g (alloc o).
Proof.
  intros Ho h y h' E. injection E as <- <-. eexists. split; [reflexivity|]. intros k Hk. rewrite app_length in Hk. cbn in Hk.
  assert (k = length h) as -> by lia. rewrite get_last. apply Ho.
Qed.
Lemma adds_piecewise g c a : fa_weight_magnitude a = None -> adds g (make_piecewise c g a).
Proof.
  intros E. unfold make_piecewise. destruct (fa_n a) as [n|ns]; [|apply adds_mraise]. destruct (fa_segments a) as [[s|ss]|]; try apply adds_mraise.
  apply adds_alloc. intros k o i p. rewrite E. cbn [default new_piecewise pw_w pw_in constant_random_initialization at_]. now rewrite Rmult_1_r.
Qed.
Lemma adds_basic g t a : fa_weight_magnitude a = None -> adds g (high_order_fc_layers_basic g t a).
Proof.
  intros E. unfold high_order_fc_layers_basic, fc_layers_basic.
  repeat match goal with |- context [if String.eqb ?x ?y then _ else _] => destruct (String.eqb x y) end; try apply adds_mraise; try (now apply adds_piecewise);
    try (apply adds_alloc; intros ?; exact Logic.I).
  - apply adds_mthen; [|intros f]; apply adds_alloc; intros ?; exact Logic.I.
  - unfold make_polynomial. destruct (fa_n a); [|apply adds_mraise]. apply adds_alloc. intros ?; exact Logic.I.
  - unfold make_polynomial_prod. destruct (fa_n a); apply adds_mraise.
  - unfold make_fourier. destruct (fa_n a); [|apply adds_mraise]. apply adds_alloc. intros ?; exact Logic.I.
  - intros h x h'. unfold make_polynomial_nd. destruct new_PolynomialND; [|discriminate]. apply adds_alloc. intros ?; exact Logic.I.
  - intros h x h'. unfold make_polynomial_nd. destruct new_PolynomialND; [|discriminate]. apply adds_alloc. intros ?; exact Logic.I.
  - intros h x h'. unfold make_polynomial_nd. destruct new_PolynomialND; [|discriminate]. apply adds_alloc. intros ?; exact Logic.I.
  - intros h x h'. unfold make_polynomial_nd. destruct new_PolynomialND; [|discriminate]. apply adds_alloc. intros ?; exact Logic.I.
  - intros h x h'. unfold make_piecewise_nd. destruct (fa_n a), (fa_segments a); try discriminate. destruct new_PiecewiseND; [|discriminate]. apply adds_alloc. intros ?; exact Logic.I.
Qed.
Lemma adds_replicate g n m : adds g m -> adds g (replicate n m).
Proof.
  intros Hm. induction n as [|n IH]; cbn [replicate]; [apply adds_mret|]. apply adds_mthen; auto. intros l. apply adds_mthen; auto. intros ls. apply adds_mret.
Qed.
Lemma adds_switch g t n nm a : adds g (SwitchLayer (high_order_fc_layers_basic g) t n nm a).
Proof.
  unfold SwitchLayer. apply adds_mthen; [apply adds_replicate, adds_basic; reflexivity|]. intros ls. apply adds_alloc. intros ?; exact Logic.I.
Qed.
Lemma adds_layer g t a : fa_weight_magnitude a = None -> adds g (high_order_fc_layers g t a).
Proof.
  intros E. unfold high_order_fc_layers. repeat match goal with |- context [if String.eqb ?x ?y then _ else _] => destruct (String.eqb x y) end;
    [apply adds_switch|apply adds_switch|now apply adds_basic].
Qed.
Lemma adds_between g nm nl : adds g (between nm nl).
Proof.
  unfold between. destruct nm as [[f ps]|], nl; repeat first [apply adds_mret | apply adds_mthen; [|intros ?] | apply adds_alloc; intros ?; exact Logic.I].
Qed.
Lemma adds_hidden g a dl n : forall i ls, adds g (mlp_hidden g a dl n i ls).
Proof.
  induction n as [|n IH]; intros i ls; cbn [mlp_hidden]; [apply adds_mret|].
  apply adds_mthen; [apply adds_between|]. intros b. apply adds_mthen; [now apply adds_layer|]. intros k.
  apply adds_mthen; [|intros; apply IH]. destruct (ma_resnet a && Nat.ltb 0 i)%bool; [apply adds_alloc; intros ?; exact Logic.I|apply adds_mret].
Qed.

(** The last layer of the sequence is the attribute [output_layer]. *)
Lemma mlp_last g a h0 h1 net : HighOrderMLP g a h0 = Ok (net, h1) ->
  exists dl k1 k2 m L, get h1 net = OMLP dl k1 k2 m /\ get h1 m = OSequential (L ++ [k2]) /\ drawn_from g (length h0) h1.
Proof.
  intros E.
  assert (Ad : adds g (HighOrderMLP g a)).
  { unfold HighOrderMLP. destruct Rlt_dec; [apply adds_mraise|]. destruct Rlt_dec; [apply adds_mraise|].
    apply adds_mthen; [apply adds_alloc; intros ?; exact Logic.I|intros dl]. apply adds_mthen; [now apply adds_layer|intros k1].
    apply adds_mthen; [apply adds_hidden|intros ls]. apply adds_mthen; [apply adds_between|intros b].
    apply adds_mthen; [now apply adds_layer|intros k2]. apply adds_mthen; [|intros m]; apply adds_alloc; intros ?; exact Logic.I. }
  destruct (Ad _ _ _ E) as (e & Eh & D).
  unfold HighOrderMLP in E. destruct Rlt_dec; [discriminate|]. destruct Rlt_dec; [discriminate|].
  apply mthen_inv in E. destruct E as (dl & ha & _ & E). apply mthen_inv in E. destruct E as (k1 & hb & _ & E).
  apply mthen_inv in E. destruct E as (ls & hc & _ & E). apply mthen_inv in E. destruct E as (b & hd & _ & E).
  apply mthen_inv in E. destruct E as (k2 & he & _ & E). apply mthen_inv in E. destruct E as (m & hf & Em & E).
  injection Em as <- <-. injection E as <- <-.
  exists dl, k1, k2, (length he), (ls ++ b ++ dropout_list a dl). rewrite get_last. split; auto. split; auto.
  rewrite get_app_l by (rewrite app_length; cbn; lia). rewrite get_last. f_equal. now rewrite <- !app_assoc.
Qed.

(** ** Modules that keep the shape of the hidden values *)
Definition total_on (W W' : nat) (f : tensor R -> res (tensor R)) : Prop :=
  forall x B, shape x = [B; W] -> exists y, f x = Ok y /\ shape y = [B; W'].
Lemma total_on_id W : total_on W W (fun x => Ok x).
Proof. intros x B Hx. eauto. Qed.
Lemma total_on_comp W W1 W2 f g : total_on W W1 f -> total_on W1 W2 g -> total_on W W2 (fun x => y <- f x ;; g y).
Proof. intros F G x B Hx. destruct (F x B Hx) as (y & -> & Sy). cbn [rbind]. now apply G. Qed.
Lemma total_on_ext W W' f g : (forall x, f x = g x) -> total_on W W' f -> total_on W W' g.
Proof. intros E F x B Hx. rewrite <- E. now apply F. Qed.

(** The layers whose weights an object uses directly. *)
Definition weights_of (h : heap) (k : nat) : list nat :=
  match get h k with OPiecewise _ => [k] | OSwitch _ _ ls _ => ls | _ => [] end.

Lemma via_last T W Sl s W' : via T W (Sl ++ [s]) W' -> exists W1, via T W Sl W1 /\ T s W1 W'.
Proof.
  revert W. induction Sl as [|s0 Sl IH]; intros W H; inversion H as [|? W1 ? ? ? H0 H1]; subst.
  - inversion H1; subst. exists W. split; [constructor|auto].
  - destruct (IH _ H1) as (W2 & V & Ts). exists W2. split; auto. econstructor; eauto.
Qed.
Lemma run_app c L L' x : run c (L ++ L') x = (y <- run c L x ;; run c L' y).
Proof. revert x. induction L as [|k L IH]; intros x; cbn [run app rbind]; auto. destruct (c k x); cbn [rbind]; auto. Qed.

(** A layer with weights as drawn is constant. *)
Lemma drawn_constant g k l v o : held l -> sum_class (pw_cls l) -> (1 <= pw_in l)%nat -> as_drawn g k (OPiecewise l) -> (o < pw_out l)%nat ->
  layer_out l v o = rsum (pw_in l) (fun i => g k [o; i]) / INR (pw_in l).
Proof.
  intros H Hc HI D Ho. rewrite layer_out_sum by auto. unfold Rdiv. rewrite <- rsum_scal_r. apply rsum_ext. intros i Hi.
  apply link_const; auto. intros p Hp. cbn in D. apply D.
Qed.
Lemma average_range (g : rng) k o W : (1 <= W)%nat -> (forall k ix, 0 <= g k ix < 1) -> 0 <= rsum W (fun i => g k [o; i]) / INR W <= 1.
Proof.
  intros HW Hg. assert (P := INR_pos W HW). assert (I0 : 0 < / INR W) by now apply Rinv_0_lt_compat.
  assert (A : 0 <= rsum W (fun i => g k [o; i]) <= INR W).
  { clear P I0 HW. induction W as [|W IH]; cbn [rsum]; [cbn; lra|]. rewrite S_INR. specialize (Hg k [o; W]). lra. }
  unfold Rdiv. split; [nra|]. replace 1 with (INR W * / INR W) by (field; lra). nra.
Qed.

Lemma drawn_call g h k l : wf_heap h -> get h k = OPiecewise l -> held l -> sum_class (pw_cls l) -> as_drawn g k (OPiecewise l) ->
  forall x B, shape x = [B; pw_in l] -> exists y, call h k x = Ok y /\ shape y = [B; pw_out l] /\
    forall b o, (b < B)%nat -> (o < pw_out l)%nat -> at_ y [b; o] = rsum (pw_in l) (fun i => g k [o; i]) / INR (pw_in l).
Proof.
  intros Wf E H Hc D x B Hx. pose proof (get_pw_lt _ _ _ E) as Lk. rewrite call_unfold, E by auto. cbn [obj_forward].
  destruct (forward_rows l x B H Hx) as (y & Ey & Sy & Vy). exists y. split; auto. split; auto. intros b o Hb Ho. rewrite Vy by auto.
  apply drawn_constant; auto. apply held_wf in H. destruct H as (_ & _ & HI & _). exact HI.
Qed.

(** ** C85: before the first training step the network is constant, and so it stays whatever the weights of all layers
    but the last become *)
Theorem C85_fresh_output_constant : forall g a h0 h1 net ni nh no si sh so,
  wf_heap h0 -> plain_mlp a ni nh no si sh so ->
  (forall f ps, ma_normalization a = Some (f, ps) -> total_on (ma_hidden_width a) (ma_hidden_width a) f) ->
  (forall k, ma_non_linearity a = Some k -> (k < length h0)%nat /\
     exists f ps, get h0 k = OModule f ps /\ total_on (ma_hidden_width a) (ma_hidden_width a) f) ->
  HighOrderMLP g a h0 = Ok (net, h1) ->
  exists dl k1 k2 m (c : nat -> R), get h1 net = OMLP dl k1 k2 m /\
    ((forall k ix, 0 <= g k ix < 1) -> forall o, 0 <= c o <= 1) /\
    forall h, retrained h1 h -> (forall k, In k (weights_of h1 k2) -> get h k = get h1 k) ->
    forall x B, shape x = [B; ma_in_width a] ->
      exists y, call h net x = Ok y /\ shape y = [B; ma_out_width a] /\
        forall b o, (b < B)%nat -> (o < ma_out_width a)%nat -> at_ y [b; o] = c o.
Proof.
  intros g a h0 h1 net ni nh no si sh so W P Hnm Hnl E. set (H := ma_hidden_width a) in *.
  assert (A : activation_in h0 a) by (intros k Ek; destruct (Hnl k Ek) as (Lk & f & ps & Gk & _); eauto).
  destruct (mlp_last g a h0 h1 net E) as (dl & k1 & k2 & m & L & G & Q & Dr).
  pose proof (pm_type _ _ _ _ _ _ _ P) as Pt. pose proof (pm_widths _ _ _ _ _ _ _ P) as (WI & WH & WO).
  (* what a network with the same structure looks like *)
  assert (View : forall h, retrained h1 h -> exists nl, wf_heap h /\ (net < length h)%nat /\ get h net = OMLP dl k1 k2 m /\ (m < length h)%nat /\
     get h m = OSequential (L ++ [k2]) /\ describes nl dl h k2 (layer_slot (ma_layer_type a) no H (ma_out_width a) so (ma_periodicity a)) /\
     (forall k, In k (leaves h k2) -> (length h0 <= k < length h)%nat) /\ total_on (ma_in_width a) H (run (call h) L)).
  { intros h Rt. destruct (mlp_view g a h0 h1 h net ni nh no si sh so W P A E Rt) as (nl & dl' & k1' & k2' & m' & L' & Wf & Ln & G' & Lm & Q' & B & Ld & Gd & _ & _ & An & _).
    assert (Len : length h = length h1) by apply Rt.
    assert (X : get h net = OMLP dl k1 k2 m) by (pose proof (retrained_same h1 h net Rt) as X; rewrite G in X; apply X; lia).
    rewrite X in G'. injection G' as <- <- <- <-.
    assert (Y : get h m = OSequential (L ++ [k2])) by (pose proof (retrained_same h1 h m Rt) as Y; rewrite Q in Y; apply Y; lia).
    rewrite Y in Q'. injection Q' as <-.
    set (s := layer_slot (ma_layer_type a) no H (ma_out_width a) so (ma_periodicity a)) in *.
    set (T := fun s W W1 => match s with
       | SP c => c_in c = W /\ c_out c = W1
       | SSw cs => cs <> [] /\ Forall (fun c => c_in c = W /\ c_out c = W1) cs
       | SM f => total_on W W1 f
       | SNl => W = H /\ W1 = H /\ exists k, ma_non_linearity a = Some k
       | SDrop => W1 = W end).
    assert (Ly : forall t n I O s per, refinable_type t -> T (layer_slot t n I O s per) I O).
    { intros t n I O s0 per Ht. destruct (layer_slot_cases t n I O s0 per Ht) as [(c & _ & ->)|(c & _ & ->)]; cbn; [auto|].
      split; [discriminate|]. repeat constructor. }
    assert (V : via T (ma_in_width a) (mlp_slots a ni nh no si sh so) (ma_out_width a)).
    { destruct P. apply mlp_via; try (now apply Ly); cbn; auto; eauto. }
    pose proof (b_desc _ _ _ _ _ _ B) as D.
    assert (Es : exists Pre, mlp_slots a ni nh no si sh so = Pre ++ [s]).
    { eexists. unfold mlp_slots, s. rewrite !app_assoc. reflexivity. }
    destruct Es as (Pre & Es). rewrite Es in V, D. destruct (via_last _ _ _ _ _ V) as (W1 & V1 & Ts).
    assert (W1 = H) as ->.
    { unfold s in Ts. destruct (layer_slot_cases (ma_layer_type a) no H (ma_out_width a) so (ma_periodicity a) Pt) as [(c & _ & Ec)|(c & _ & Ec)]; rewrite Ec in Ts; cbn in Ts.
      - now destruct Ts.
      - destruct Ts as (_ & Ts). assert (Ts' := Forall_inv Ts). cbn in Ts'. now destruct Ts'. }
    apply Forall2_app_inv_r in D. destruct D as (L1 & L2 & D1 & D2 & EL). inversion D2 as [|k ? ? ? Dk D3]; subst. inversion D3; subst.
    apply app_inj_tail in EL. destruct EL as (<- & <-).
    exists nl. do 5 (split; [now auto|]). split; [exact Dk|]. split.
    { intros k Hk. assert (Hk' : In k (flat_map (leaves h) (L ++ [k2]))) by (apply in_flat_map; exists k2; split; auto; apply in_or_app; right; now left).
      apply (b_leaf_base _ _ _ _ _ _ B) in Hk'. pose proof (b_dl _ _ _ _ _ _ B). lia. }
    apply (links_run total_on total_on_id total_on_comp total_on_ext).
    assert (LtL : forall k, In k L -> (k < length h)%nat) by (intros k Hk; eapply built_lt; [exact B|apply in_or_app; now left]).
    clear - D1 V1 Wf Hnl An Gd Ld LtL. revert V1. generalize (ma_in_width a). induction D1 as [|k s L Sl (Lk & Dk) D1 IH]; intros W0 V; inversion V as [|? W1 ? ? ? V0 V1]; subst; [constructor|].
    econstructor; [|apply IH; [intros; apply LtL; now right|exact V1]]. clear IH V1 V.
    assert (One : forall j l, get h j = OPiecewise l -> held l -> (j < length h)%nat -> total_on (pw_in l) (pw_out l) (call h j)).
    { intros j l Ej Hl Lj x B Hx. destruct (forward_rows l x B Hl Hx) as (y & Ey & Sy & _). exists y. rewrite call_unfold, Ej by auto. auto. }
    destruct s as [c|cs|f| |]; cbn in V0.
    - destruct V0 as (<- & <-), Dk as (l & El & Hl & <-). now apply One.
    - destruct Dk as (I & O & ls & El & F), V0 as (Nc & Io). apply (total_on_ext _ _ (obj_forward (call h) (OSwitch I O ls None))).
      { intros x. now rewrite (call_unfold h k), El by auto. }
      intros x B Hx. cbn [obj_forward].
      assert (Al : exists ys, all_outputs (call h) ls x = Ok ys /\ Forall (fun y => shape y = [B; W1]) ys /\ length ys = length ls).
      { clear El Nc. revert Io. induction F as [|j c ls cs (l & Ej & Hl & <-) F IHF]; intros Io; [exists []; repeat split; constructor|].
        inversion Io as [|? ? (C1 & C2) Io']; subst. destruct (One j l Ej Hl (get_pw_lt _ _ _ Ej) x B Hx) as (y & Ey & Sy).
        destruct (IHF Io') as (ys & Eys & Sys & Lys). exists (y :: ys). cbn [all_outputs]. rewrite Ey. cbn [rbind]. rewrite Eys. cbn [rbind length].
        split; auto. }
      destruct Al as (ys & -> & Sys & Lys). cbn [rbind].
      destruct ys as [|y ys]; [exfalso; apply Nc; destruct ls; [now inversion F|discriminate]|].
      inversion Sys; subst. cbn [product_outputs]. destruct (times_all_continuous B W1 ys y) as (z & Ez & Sz & _); auto. rewrite Ez. cbn [rbind]. eauto.
    - destruct Dk as (ps & El). apply (total_on_ext _ _ f); auto. intros x. now rewrite (call_unfold h k), El by auto.
    - destruct V0 as (-> & -> & k' & Ek'), Dk as (-> & _). destruct (An k' Ek') as (-> & Lk' & Gk'). destruct (Hnl k' Ek') as (_ & f & ps & El & Cf).
      apply (total_on_ext _ _ f); auto. intros x. rewrite (call_unfold h k') by auto. now rewrite Gk', El.
    - destruct Dk as (-> & _). subst W1. apply (total_on_ext _ _ (fun x => Ok x)); [|apply total_on_id].
      intros x. now rewrite (call_unfold h dl), Gd by auto. }
  exists dl, k1, k2, m.
  assert (Rf : retrained h1 h1) by (split; auto; intros; constructor).
  destruct (View h1 Rf) as (nl1 & Wf1 & Ln1 & _ & Lm1 & _ & (Lk2 & D1) & Lv1 & _).
  assert (Run : forall h x, (net < length h)%nat -> (m < length h)%nat -> wf_heap h -> get h net = OMLP dl k1 k2 m -> get h m = OSequential (L ++ [k2]) ->
     call h net x = (y <- run (call h) L x ;; call h k2 y)).
  { intros h x Ln Lm Wf Gn Gm. rewrite (call_unfold h net), Gn by auto. cbn [obj_forward]. rewrite (call_unfold h m), Gm by auto. cbn [obj_forward].
    rewrite run_app. destruct (run (call h) L x) as [y|e]; cbn [rbind run]; auto. destruct (call h k2 y); reflexivity. }
  destruct (layer_slot_cases (ma_layer_type a) no H (ma_out_width a) so (ma_periodicity a) Pt) as [(c & Hc & Ec)|(c & Hc & Ec)]; rewrite Ec in *.
  - destruct D1 as (l & El & Hl & Cl). exists (fun o => rsum H (fun i => g k2 [o; i]) / INR H). split; auto. split; [intros Hg o; now apply average_range|].
    intros h Rt Keep x B Hx. destruct (View h Rt) as (nl & Wf & Ln & Gn & Lm & Gm & _ & _ & Tot).
    destruct (Tot x B Hx) as (u & Eu & Su). rewrite Run by auto. rewrite Eu. cbn [rbind].
    assert (El' : get h k2 = OPiecewise l) by (rewrite <- El; apply Keep; unfold weights_of; rewrite El; now left).
    assert (C := Cl). unfold cfg_of, pw_slot in C. injection C as C1 C2 C3 C4 C5 C6 C7.
    rewrite <- C3 in Su. destruct (drawn_call g h k2 l Wf El' Hl) with (x := u) (B := B) as (y & Ey & Sy & Vy); auto.
    { now rewrite C1. }
    { rewrite <- El. apply Dr. apply Lv1. unfold leaves. rewrite El. now left. }
    rewrite C3, C4 in *. exists y. auto.
  - destruct D1 as (I & O & ls & El & F).
    assert (exists j1 j2, ls = [j1; j2] /\ is_pw h1 j1 (pw_slot c no H (ma_out_width a) so None) /\ is_pw h1 j2 (pw_slot c no H (ma_out_width a) so None)) as (j1 & j2 & -> & P1 & P2).
    { inversion F as [|j1 ? ls1 ? P1 F1]; subst. inversion F1 as [|j2 ? ls2 ? P2 F2]; subst. inversion F2; subst. eauto. }
    destruct P1 as (l1 & E1 & Hl1 & C1), P2 as (l2 & E2 & Hl2 & C2).
    assert (D1 := C1). unfold cfg_of, pw_slot in D1. injection D1 as A1 A2 A3 A4 A5 A6 A7.
    assert (D2 := C2). unfold cfg_of, pw_slot in D2. injection D2 as B1 B2 B3 B4 B5 B6 B7.
    exists (fun o => rsum H (fun i => g j1 [o; i]) / INR H * (rsum H (fun i => g j2 [o; i]) / INR H)). split; auto. split.
    { intros Hg o. pose proof (average_range g j1 o H WH Hg). pose proof (average_range g j2 o H WH Hg). nra. }
    intros h Rt Keep x B Hx. destruct (View h Rt) as (nl & Wf & Ln & Gn & Lm & Gm & _ & _ & Tot).
    destruct (Tot x B Hx) as (u & Eu & Su). rewrite Run by auto. rewrite Eu. cbn [rbind].
    assert (Len : length h = length h1) by apply Rt.
    assert (El' : get h k2 = OSwitch I O [j1; j2] None) by (pose proof (retrained_same h1 h k2 Rt Lk2) as X; rewrite El in X; exact X).
    assert (K1 : get h j1 = OPiecewise l1) by (rewrite <- E1; apply Keep; unfold weights_of; rewrite El; now left).
    assert (K2 : get h j2 = OPiecewise l2) by (rewrite <- E2; apply Keep; unfold weights_of; rewrite El; right; now left).
    rewrite call_unfold, El' by (auto; lia). cbn [obj_forward all_outputs].
    destruct (drawn_call g h j1 l1 Wf K1 Hl1) with (x := u) (B := B) as (y1 & Ey1 & Sy1 & Vy1); [now rewrite A1| |now rewrite A3|].
    { rewrite <- E1. apply Dr. apply Lv1. unfold leaves. rewrite El. now left. }
    destruct (drawn_call g h j2 l2 Wf K2 Hl2) with (x := u) (B := B) as (y2 & Ey2 & Sy2 & Vy2); [now rewrite B1| |now rewrite B3|].
    { rewrite <- E2. apply Dr. apply Lv1. unfold leaves. rewrite El. right. now left. }
    rewrite Ey1. cbn [rbind]. rewrite Ey2. cbn [rbind product_outputs times_all]. rewrite A4 in *. rewrite B4 in *. rewrite A3 in *. rewrite B3 in *.
    destruct (times_same y1 y2 B (ma_out_width a) Sy1 Sy2) as (z & Ez & Sz & Vz). rewrite Ez. cbn [rbind]. exists z. split; auto. split; auto.
    intros b o Hb Ho. rewrite Vz, Vy1, Vy2 by auto. reflexivity.
Qed.
Print Assumptions C85_fresh_output_constant.

(** Entry [o] of the answer to sample [b]. *)
Definition answer (h : heap) (net : nat) (x : tensor R) (b o : nat) : R :=
  match call h net x with Ok y => at_ y [b; o] | Err _ => 0 end.

(** However the loss is computed from the outputs, its gradient in the weights of every layer but the last is zero in
    the first step: along any path of weights of such a layer the loss does not change. *)
Theorem C85_first_gradient_zero : forall g a h0 h1 net ni nh no si sh so,
  wf_heap h0 -> plain_mlp a ni nh no si sh so ->
  (forall f ps, ma_normalization a = Some (f, ps) -> total_on (ma_hidden_width a) (ma_hidden_width a) f) ->
  (forall k, ma_non_linearity a = Some k -> (k < length h0)%nat /\
     exists f ps, get h0 k = OModule f ps /\ total_on (ma_hidden_width a) (ma_hidden_width a) f) ->
  HighOrderMLP g a h0 = Ok (net, h1) ->
  exists dl k1 k2 m, get h1 net = OMLP dl k1 k2 m /\
    forall k l x B (path : R -> tensor R) (loss : (nat -> nat -> R) -> R),
      get h1 k = OPiecewise l -> ~ In k (weights_of h1 k2) -> shape x = [B; ma_in_width a] ->
      (forall t, shape (path t) = shape (pw_w l)) ->
      (forall u v, (forall b o, (b < B)%nat -> (o < ma_out_width a)%nat -> u b o = v b o) -> loss u = loss v) ->
      forall t, derivable_pt_lim (fun t => loss (answer (set_obj h1 k (OPiecewise (with_w l (path t)))) net x)) t 0.
Proof.
  intros g a h0 h1 net ni nh no si sh so W P Hnm Hnl E.
  destruct (C85_fresh_output_constant g a h0 h1 net ni nh no si sh so W P Hnm Hnl E) as (dl & k1 & k2 & m & c & G & _ & F).
  exists dl, k1, k2, m. split; auto. intros k l x B path loss Ek Nk Hx Hp Hl t.
  pose proof (get_pw_lt _ _ _ Ek) as Lk.
  assert (C : forall t, loss (answer (set_obj h1 k (OPiecewise (with_w l (path t)))) net x) = loss (fun _ o => c o)).
  { intros t0. apply Hl. intros b o Hb Ho. unfold answer. destruct (F (set_obj h1 k (OPiecewise (with_w l (path t0))))) with (x := x) (B := B) as (y & -> & _ & V); auto.
    - unfold retrained; split; [rewrite set_obj_length; auto|]. intros i Hi. destruct (Nat.eq_dec k i) as [<-|Ne].
      + rewrite get_set_same, Ek by auto. now constructor.
      + rewrite get_set_other by auto. constructor.
    - intros i Hi. rewrite get_set_other; auto. intros Eq. subst i. contradiction. }
  intros eps He. exists (mkposreal 1 Rlt_0_1). intros d Hd _. rewrite !C. unfold Rminus. rewrite Rplus_opp_r. unfold Rdiv. rewrite Rmult_0_l, Ropp_0, Rplus_0_l, Rabs_R0. exact He.
Qed.
Print Assumptions C85_first_gradient_zero.

(** A network of four layers with normalisation, activation and dropout meets the hypotheses. *)
Example C85_case : exists net h1 c, HighOrderMLP (fun k _ => / INR (k + 2)) (demo_args "discontinuous" "switch_continuous" 3 2) demo_heap = Ok (net, h1) /\
  (forall o, 0 <= c o <= 1) /\
  forall x, shape x = [5%nat; 2%nat] -> exists y, call h1 net x = Ok y /\ forall b, (b < 5)%nat -> at_ y [b; 0%nat] = c 0%nat.
Proof.
  assert (Ti : refinable_type "discontinuous") by (right; now left). assert (T : refinable_type "switch_continuous") by (right; right; now left).
  destruct (demo_built (fun k _ => / INR (k + 2)) "discontinuous" "switch_continuous" 3 2 Ti T ltac:(lia) ltac:(lia)) as (net & h1 & E).
  destruct (C85_fresh_output_constant (fun k _ => / INR (k + 2)) _ demo_heap h1 net _ _ _ _ _ _ demo_heap_wf
    (demo_plain "discontinuous" "switch_continuous" 3 2 Ti T ltac:(lia) ltac:(lia))) as (dl & k1 & k2 & m & c & G & Rg & F); auto.
  { intros f ps Ef x B Hx. injection Ef as <- _. eexists. split; [reflexivity|]. exact Hx. }
  { intros k Ek. injection Ek as <-. split; [cbn; lia|]. eexists _, _. split; [reflexivity|]. intros x B Hx. eexists. split; [reflexivity|]. exact Hx. }
  exists net, h1, c. split; auto. split.
  - apply Rg. intros k _. assert (0 < INR (k + 2)) by (apply lt_0_INR; lia). split; [left; now apply Rinv_0_lt_compat|].
    rewrite <- Rinv_1. apply Rinv_lt_contravar; [lra|]. change 1 with (INR 1). apply lt_INR. lia.
  - intros x Hx. destruct (F h1 (retrained_refl _) ltac:(auto) x 5%nat Hx) as (y & Ey & _ & V). exists y. split; auto.
Qed.
