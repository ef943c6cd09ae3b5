(** * Widths of the modules of a network. *)
From Coq Require Import String Reals Lra ZArith List Lia Bool Arith.
From Verif Require Import Spec Tensor Utils LagrangePolynomial Basis PolynomialLayers Refine ProductLayer LagrangeND Layers Networks
  Observe ObserveNet SumFacts TensorFacts LayerFacts SegmentFacts LayerProofs RefineFacts HeapFacts NetFacts NetCopy Prop_Product.
Import ListNotations.
Local Open Scope R_scope.
Local Open Scope nat_scope.

(** [h'] is [h] with more objects and other weights. *)
Definition later (h h' : heap) : Prop :=
  wf_heap h' /\ length h <= length h' /\ forall i, i < length h -> reweighted (get h i) (get h' i).

Lemma later_trans h1 h2 h3 : later h1 h2 -> later h2 h3 -> later h1 h3.
Proof.
  intros (W1 & L1 & R1) (W2 & L2 & R2). split; auto. split; [lia|]. intros i Hi.
  eapply reweighted_trans; [apply R1|apply R2]; lia.
Qed.
Lemma later_app h e : wf_heap (h ++ e) -> later h (h ++ e).
Proof. intros W. split; auto. split; [rewrite app_length; lia|]. intros i Hi. rewrite get_app_l by auto. constructor. Qed.
Lemma later_retrained h h' : wf_heap h -> retrained h h' -> later h h'.
Proof. intros W R. split; [now apply (retrained_wf h)|]. destruct R as (L & R). split; [lia|auto]. Qed.

(** What a module does to batches of rows of width [W]: it returns batches of rows of width [W'].  Below we
    prove this, or the stronger [rowwise], of whole networks. *)
Definition maps (W W' : nat) (f : tensor R -> res (tensor R)) : Prop :=
  forall x B, shape x = [B; W] -> exists y, f x = Ok y /\ shape y = [B; W'].
Lemma rowwise_maps W W' f : rowwise W W' f -> maps W W' f.
Proof. intros (F & _ & H) x B Hx. destruct (H x B Hx) as (y & E & S & _). eauto. Qed.

(** Either of the two; everything about networks below holds for both. *)
Definition good (q : bool) (W W' : nat) (f : tensor R -> res (tensor R)) : Prop := if q then rowwise W W' f else maps W W' f.
Lemma good_intro q W W' f : rowwise W W' f -> good q W W' f.
Proof. destruct q; auto. apply rowwise_maps. Qed.
Lemma good_maps q W W' f : good q W W' f -> maps W W' f.
Proof. destruct q; auto. apply rowwise_maps. Qed.
Lemma good_ext q W W' f f' : (forall x, f' x = f x) -> good q W W' f -> good q W W' f'.
Proof.
  intros E. destruct q.
  - intros (F & X & H). exists F. split; auto. intros x B Hx. rewrite E. auto.
  - intros H x B Hx. rewrite E. auto.
Qed.
Lemma good_id q W : good q W W (fun x => Ok x).
Proof.
  apply good_intro. exists (fun u => u). split; [auto|]. intros x B Hx. exists x. repeat split; auto.
Qed.
Lemma good_comp q W W1 W2 f f' : good q W W1 f -> good q W1 W2 f' -> good q W W2 (fun x => y <- f x ;; f' y).
Proof.
  destruct q.
  - intros (F & X & H) (F' & X' & H'). exists (fun u => F' (F u)). split; [intros u v Huv; now apply X', X|].
    intros x B Hx. destruct (H x B Hx) as (y & E & S & V). destruct (H' y B S) as (z & E' & S' & V'). exists z. rewrite E. cbn.
    repeat split; auto. intros b o Hb Ho. rewrite V' by auto. apply X'; auto. intros i Hi. now apply V.
  - intros H H' x B Hx. destruct (H x B Hx) as (y & E & S). rewrite E. cbn. now apply H'.
Qed.
Lemma good_pointwise q W (r : R -> R) : good q W W (fun x => Ok (tmap r x)).
Proof.
  apply good_intro. exists (fun u o => r (u o)). split; [intros u v H o Ho; now rewrite H|]. intros x B Hx. eexists. split; [reflexivity|].
  split; [exact Hx|]. intros b o Hb Ho. reflexivity.
Qed.
Lemma broadcast2_same f a b B W : shape a = [B; W] -> shape b = [B; W] ->
  exists y, broadcast2 f a b = Ok y /\ shape y = [B; W].
Proof.
  intros Ha Hb. unfold broadcast2. rewrite Ha, Hb.
  assert (E : bshape [B; W] [B; W] = Some [B; W]) by (unfold bshape; cbn; now rewrite !bsize_refl).
  rewrite E. eexists. split; reflexivity.
Qed.
Lemma broadcast2_rows f a b B W : shape a = [B; W] -> shape b = [B; W] ->
  exists y, broadcast2 f a b = Ok y /\ shape y = [B; W] /\ forall i o, i < B -> o < W -> at_ y [i; o] = f (at_ a [i; o]) (at_ b [i; o]).
Proof.
  intros Ha Hb. unfold broadcast2. rewrite Ha, Hb.
  assert (E : bshape [B; W] [B; W] = Some [B; W]) by (unfold bshape; cbn; now rewrite !bsize_refl).
  rewrite E. eexists. split; [reflexivity|]. split; [reflexivity|]. intros i o Hi Ho. cbn. unfold bindex. cbn. now rewrite !bc_id.
Qed.
Lemma good_sum q c a b W W' : good q W W' (c a) -> good q W W' (c b) -> good q W W' (obj_forward c (OSum [a; b])).
Proof.
  destruct q.
  - intros (F & X & H) (F' & X' & H'). exists (fun u o => F u o + F' u o)%R. split; [intros u v Huv o Ho; f_equal; auto|].
    intros x B Hx. destruct (H x B Hx) as (y & E & S & V). destruct (H' x B Hx) as (z & E' & S' & V'). cbn. rewrite E. cbn. rewrite E'. cbn.
    destruct (broadcast2_rows Rplus y z B W' S S') as (t & Et & St & Vt). exists t. repeat split; auto. intros i o Hi Ho. now rewrite Vt, V, V' by auto.
  - intros H H' x B Hx. destruct (H x B Hx) as (y & E & S). destruct (H' x B Hx) as (z & E' & S'). cbn. rewrite E. cbn. rewrite E'. cbn.
    now apply broadcast2_same.
Qed.
Lemma good_switch q c I O a b W W' : good q W W' (c a) -> good q W W' (c b) -> good q W W' (obj_forward c (OSwitch I O [a; b] None)).
Proof.
  destruct q.
  - intros (F & X & H) (F' & X' & H'). exists (fun u o => F u o * F' u o)%R. split; [intros u v Huv o Ho; f_equal; auto|].
    intros x B Hx. destruct (H x B Hx) as (y & E & S & V). destruct (H' x B Hx) as (z & E' & S' & V'). cbn. rewrite E. cbn. rewrite E'. cbn.
    destruct (times_same y z B W' S S') as (t & Et & St & Vt). rewrite Et. cbn. exists t. repeat split; auto. intros i o Hi Ho. now rewrite Vt, V, V' by auto.
  - intros H H' x B Hx. destruct (H x B Hx) as (y & E & S). destruct (H' x B Hx) as (z & E' & S'). cbn. rewrite E. cbn. rewrite E'. cbn.
    destruct (times_same y z B W' S S') as (t & Et & St & _). rewrite Et. cbn. eauto.
Qed.
Lemma good_pw q l : held l -> good q (pw_in l) (pw_out l) (Piecewise_forward l).
Proof.
  intros Hl. apply good_intro. exists (layer_out l). split.
  - intros u v H o Ho. rewrite !layer_out_eq by auto. apply combine_ext. intros i Hi. now rewrite H.
  - intros x B Hx. now apply forward_rows.
Qed.
Lemma good_func q l I O : 1 <= f_n l -> shape (f_w l) = [O; I; f_n l] -> good q I O (Function_forward l).
Proof.
  intros Hn Hw. apply good_intro. destruct l as [n bs p w]. cbn [f_n f_w] in *.
  exists (fun u o => rsum I (fun i => rsum n (fun k => LagrangePolynomial.call bs (apply_periodicity p (u i)) k * at_ w [o; i; k])%R)). split.
  - intros u v H o Ho. apply rsum_ext. intros i Hi. now rewrite H.
  - intros x B Hx. now apply function_spec.
Qed.
Lemma good_product q l b : shape (pr_weight l) = [pr_out l; pr_in l] -> pr_bias l = Some b -> shape b = [pr_out l] ->
  good q (pr_in l) (pr_out l) (Product_forward l).
Proof.
  intros Hw Hb Sb. apply good_intro.
  exists (fun u o => let f i := (at_ (pr_weight l) [o; i] * apply_periodicity (pr_periodicity l) (u i))%R in
    (rprod (pr_in l) (fun i => f i + 1) - 1 - (1 - pr_alpha l) * rsum (pr_in l) f + at_ b [o])%R). split.
  - intros u v H o Ho. cbv zeta. f_equal. f_equal; [f_equal; apply rprod_ext|f_equal; apply rsum_ext]; intros i Hi; now rewrite H.
  - intros x B Hx. now apply product_spec.
Qed.
Lemma good_linear q w b I O : shape w = [O; I] -> good q I O (Linear_forward w b).
Proof.
  intros Hw. apply good_intro. exists (fun u o => rsum I (fun k => u k * at_ w [o; k]) + at_ b [o])%R. split.
  - intros u v H o Ho. f_equal. apply rsum_ext. intros i Hi. now rewrite H.
  - intros x B Hx. unfold Linear_forward. rewrite Hw, Hx. cbn. rewrite Nat.eqb_refl. eexists. split; [reflexivity|]. split; reflexivity.
Qed.

Definition typedq (q : bool) (h : heap) (k W W' : nat) : Prop :=
  k < length h /\ forall h', later h h' -> good q W W' (call h' k).
Notation typed := (typedq false).

Lemma typed_later {q} h h' k W W' : later h h' -> typedq q h k W W' -> typedq q h' k W W'.
Proof. intros L (H & T). split; [destruct L as (_ & L & _); lia|]. intros h'' L'. apply T. eapply later_trans; eauto. Qed.

(** Typing an object from its forward method. *)
Lemma typed_good {q} h k W W' : k < length h -> (forall h', later h h' -> good q W W' (obj_forward (call h') (get h' k))) -> typedq q h k W W'.
Proof.
  intros H F. split; auto. intros h' L. eapply good_ext; [|apply (F h' L)]. intros x. destruct L as (W2 & L & _). rewrite call_unfold; auto; lia.
Qed.
Lemma typed_intro h k W W' : k < length h ->
  (forall h', later h h' -> forall x B, shape x = [B; W] -> exists y, obj_forward (call h') (get h' k) x = Ok y /\ shape y = [B; W']) ->
  typed h k W W'.
Proof. intros H F. now apply typed_good. Qed.

Inductive typed_listq (q : bool) (h : heap) : nat -> list nat -> nat -> Prop :=
| tl_nil W : typed_listq q h W [] W
| tl_cons W W1 W2 k L : typedq q h k W W1 -> typed_listq q h W1 L W2 -> typed_listq q h W (k :: L) W2.
Notation typed_list := (typed_listq false).
Lemma typed_list_app {q} h W W1 W2 L L' : typed_listq q h W L W1 -> typed_listq q h W1 L' W2 -> typed_listq q h W (L ++ L') W2.
Proof. induction 1; intros H'; cbn; auto. econstructor; eauto. Qed.
Lemma typed_list_one {q} h W W1 k : typedq q h k W W1 -> typed_listq q h W [k] W1.
Proof. intros. econstructor; eauto. constructor. Qed.
Lemma typed_list_later {q} h h' W L W' : later h h' -> typed_listq q h W L W' -> typed_listq q h' W L W'.
Proof. intros R. induction 1; econstructor; eauto using typed_later. Qed.
Lemma typed_list_lt {q} h W L W' k : typed_listq q h W L W' -> In k L -> k < length h.
Proof. induction 1 as [|? ? ? ? ? T]; intros Hin; [destruct Hin|]. destruct Hin as [<-|Hin]; auto. apply T. Qed.
Lemma run_good q h h' W L W' : typed_listq q h W L W' -> later h h' -> good q W W' (run (call h') L).
Proof.
  induction 1 as [W|W W1 W2 k L T TL IH]; intros R; [apply good_id|].
  eapply good_ext; [|apply (good_comp q W W1 W2 (call h' k) (run (call h') L)); [now apply T|now apply IH]]. reflexivity.
Qed.
Lemma run_typed h h' W L W' : typed_list h W L W' -> later h h' -> forall x B, shape x = [B; W] ->
  exists y, run (call h') L x = Ok y /\ shape y = [B; W'].
Proof. intros T R. apply (run_good false h h' W L W' T R). Qed.

Lemma typed_sequential {q} h m L W W' : m < length h -> get h m = OSequential L -> typed_listq q h W L W' -> typedq q h m W W'.
Proof.
  intros H E T. apply typed_good; auto. intros h' R.
  assert (Q : get h' m = OSequential L). { destruct R as (_ & _ & R). specialize (R m H). rewrite E in R. inversion R; auto. }
  rewrite Q. exact (run_good q h h' W L W' T R).
Qed.
Lemma typed_moduleq {q} h k f ps W : k < length h -> get h k = OModule f ps -> good q W W f -> typedq q h k W W.
Proof.
  intros H E P. apply typed_good; auto. intros h' R.
  assert (Q : get h' k = OModule f ps). { destruct R as (_ & _ & R). specialize (R k H). rewrite E in R. inversion R; auto. }
  rewrite Q. exact P.
Qed.
Lemma on_width_maps W f : on_width W f -> maps W W f.
Proof. intros P x B Hx. destruct (P x B Hx) as (y & Ey & S). exists y. split; auto. congruence. Qed.
Lemma typed_module h k f ps W : k < length h -> get h k = OModule f ps -> on_width W f -> typed h k W W.
Proof. intros H E P. apply (typed_moduleq (q := false) h k f ps); auto. now apply on_width_maps. Qed.
Lemma typed_relu {q} h k f W W' : k < length h -> get h k = OLinearRelu f -> typedq q h f W W' -> typedq q h k W W'.
Proof.
  intros H E (_ & T). apply typed_good; auto. intros h' R.
  assert (Q : get h' k = OLinearRelu f). { destruct R as (_ & _ & R'). specialize (R' k H). rewrite E in R'. inversion R'; auto. }
  rewrite Q. exact (good_comp q W W' W' (call h' f) (fun y => Ok (relu y)) (T h' R) (good_pointwise q W' _)).
Qed.
Lemma typed_sum {q} h k a b W W' : k < length h -> get h k = OSum [a; b] -> typedq q h a W W' -> typedq q h b W W' -> typedq q h k W W'.
Proof.
  intros H E (_ & Ta) (_ & Tb). apply typed_good; auto. intros h' R.
  assert (Q : get h' k = OSum [a; b]). { destruct R as (_ & _ & R'). specialize (R' k H). rewrite E in R'. inversion R'; auto. }
  rewrite Q. apply good_sum; auto.
Qed.
Lemma typed_switch {q} h k I O a b W W' : k < length h -> get h k = OSwitch I O [a; b] None -> typedq q h a W W' -> typedq q h b W W' -> typedq q h k W W'.
Proof.
  intros H E (_ & Ta) (_ & Tb). apply typed_good; auto. intros h' R.
  assert (Q : get h' k = OSwitch I O [a; b] None). { destruct R as (_ & _ & R'). specialize (R' k H). rewrite E in R'. inversion R'; auto. }
  rewrite Q. apply good_switch; auto.
Qed.

(** ** Layers *)
Lemma typed_pw {q} h k l : get h k = OPiecewise l -> k < length h -> held l -> typedq q h k (pw_in l) (pw_out l).
Proof.
  intros E H Hl. apply typed_good; auto. intros h' R. destruct R as (_ & _ & R). specialize (R k H). rewrite E in R.
  assert (exists l', get h' k = OPiecewise l' /\ held l' /\ pw_in l' = pw_in l /\ pw_out l' = pw_out l) as (l' & -> & Hl' & Ei & Eo).
  { inversion R; subst; [|exists l; auto]. eexists. split; [reflexivity|]. split; [now apply with_w_held|auto]. }
  rewrite <- Ei, <- Eo. now apply good_pw.
Qed.
Lemma typed_func {q} h k l I O : get h k = OFunc l -> k < length h -> 1 <= f_n l -> shape (f_w l) = [O; I; f_n l] -> typedq q h k I O.
Proof.
  intros E H Hn Hw. apply typed_good; auto. intros h' R. destruct R as (_ & _ & R). specialize (R k H). rewrite E in R.
  assert (exists w, get h' k = OFunc (with_fw l w) /\ shape w = shape (f_w l)) as (w & -> & Ew).
  { inversion R; subst; [eauto|]. exists (f_w l). destruct l; auto. }
  apply (good_func q (with_fw l w)); cbn; auto. congruence.
Qed.
Lemma typed_product {q} h k l b : get h k = OProduct l -> k < length h -> shape (pr_weight l) = [pr_out l; pr_in l] ->
  pr_bias l = Some b -> shape b = [pr_out l] -> typedq q h k (pr_in l) (pr_out l).
Proof.
  intros E H Hw Hb Sb. apply typed_good; auto. intros h' R. destruct R as (_ & _ & R). specialize (R k H). rewrite E in R.
  assert (exists l' b', get h' k = OProduct l' /\ shape (pr_weight l') = [pr_out l'; pr_in l'] /\ pr_bias l' = Some b' /\
            shape b' = [pr_out l'] /\ pr_in l' = pr_in l /\ pr_out l' = pr_out l) as (l' & b' & -> & Hw' & Hb' & Sb' & Ei & Eo).
  { inversion R as [| | | |l0 w b0 Sw M E0 E1| |]; subst; [|exists l, b; auto 10]. rewrite Hb in M. destruct b0 as [b0|]; [|destruct M].
    eexists _, b0. split; [reflexivity|]. cbn. repeat split; auto; congruence. }
  rewrite <- Ei, <- Eo. now apply (good_product q l' b').
Qed.
Lemma typed_linear {q} h k w b I O : get h k = OLinear w b -> k < length h -> shape w = [O; I] -> typedq q h k I O.
Proof.
  intros E H Hw. apply typed_good; auto. intros h' R. destruct R as (_ & _ & R). specialize (R k H). rewrite E in R.
  assert (exists w' b', get h' k = OLinear w' b' /\ shape w' = [O; I]) as (w' & b' & -> & Hw').
  { inversion R; subst; [|eauto]. eexists _, _. split; [reflexivity|]. congruence. }
  now apply good_linear.
Qed.

(** What a constructor does: it appends objects; the new one is typed and is a layer. *)
Definition makesq (q : bool) (m : M nat) (h : heap) (W W' : nat) : Prop :=
  exists k e, m h = Ok (k, h ++ e) /\ wf_heap (h ++ e) /\ typedq q (h ++ e) k W W' /\ is_layer (get (h ++ e) k) = true.

Lemma makes_piecewise {q} c g h n s I O len mag per sc ro ini : wf_heap h -> 1 <= n -> 1 <= s -> 1 <= I -> 1 <= O ->
  makesq q (make_piecewise c g (mkArgs (Int n) I O (Some (Int s)) len mag per sc ro ini)) h I O.
Proof.
  intros W Hn Hs HI HO. unfold make_piecewise, alloc. cbn.
  eexists _, _. split; [reflexivity|]. rewrite get_last. split; [apply wf_snoc; auto; now cbn|].
  split; [|reflexivity].
  apply (typed_pw _ _ (new_piecewise c n I O s (default 2%R len) (default 1%R mag) per (fun o i => g (length h) [o; i])));
    [apply get_last|rewrite app_length; cbn; lia|now apply new_held].
Qed.

Lemma makes_flatq q g h t n I O seg per sc ro ini : wf_heap h -> flat_layer t n seg -> 1 <= I -> 1 <= O ->
  makesq q (high_order_fc_layers g t (mkArgs n I O seg None None per sc ro ini)) h I O.
Proof.
  intros W F HI HO. destruct F as [F|[(F & k & -> & Hk)|(F & k & s & -> & -> & Hk & Hs)]]; cbn in F.
  - destruct F as [<-|[<-|[<-|[]]]]; cbn -[String.eqb]; unfold high_order_fc_layers, high_order_fc_layers_basic, fc_layers_basic; cbn.
    + eexists _, _. split; [reflexivity|]. rewrite get_last. split; [apply wf_snoc; auto; now cbn|]. split; [|reflexivity].
      eapply typed_linear; [apply get_last|rewrite app_length; cbn; lia|reflexivity].
    + unfold makesq, LinearReluAdapter, Linear, mthen, alloc. cbn.
      set (o := OLinear _ _). eexists _, [o; _]. split; [rewrite <- app_assoc; reflexivity|].
      assert (W1 : wf_heap (h ++ [o])) by (apply wf_snoc; auto; now cbn).
      change (h ++ [o; ?x]) with (h ++ [o] ++ [x]). rewrite app_assoc, get_last.
      assert (W2 : wf_heap ((h ++ [o]) ++ [OLinearRelu (length h)])).
      { apply wf_snoc; auto. intros j [<-|[]]. rewrite app_length. cbn. lia. }
      split; auto. split; [|reflexivity]. eapply typed_relu; [rewrite !app_length; cbn; lia|apply get_last|].
      eapply typed_later; [apply later_app; exact W2|]. eapply typed_linear; [apply get_last|rewrite app_length; cbn; lia|reflexivity].
    + unfold make_product, alloc. cbn. eexists _, _. split; [reflexivity|]. rewrite get_last.
      split; [apply wf_snoc; auto; now cbn|]. split; [|reflexivity].
      eapply (typed_product _ _ (new_product I O true 1 per (fun o i => g (length h) [o; i]) (fun o => g (length h) [o])));
        [apply get_last|rewrite app_length; cbn; lia|reflexivity..].
  - destruct F as [<-|[<-|[]]]; unfold high_order_fc_layers, high_order_fc_layers_basic, fc_layers_basic; cbn.
    + eexists _, _. split; [reflexivity|]. rewrite get_last. split; [apply wf_snoc; auto; now cbn|]. split; [|reflexivity].
      eapply typed_func; [apply get_last|rewrite app_length; cbn; lia|exact Hk|]. destruct k as [|[|k]]; [lia|reflexivity..].
    + eexists _, _. split; [reflexivity|]. rewrite get_last. split; [apply wf_snoc; auto; now cbn|]. split; [|reflexivity].
      eapply typed_func; [apply get_last|rewrite app_length; cbn; lia|exact Hk|]. destruct k; [lia|reflexivity].
  - assert (SW : forall c, makesq q (SwitchLayer (fun _ => make_piecewise c g) "" 2 None (mkArgs (Int k) I O (Some (Int s)) None None per sc ro ini)) h I O).
    { intros c. unfold makesq, SwitchLayer, replicate, make_piecewise, mthen, alloc, mret. cbn.
      set (l1 := OPiecewise (new_piecewise _ _ _ _ _ _ _ _ (fun o i => g (length h) _))).
      set (l2 := OPiecewise (new_piecewise _ _ _ _ _ _ _ _ (fun o i => g (length (h ++ [l1])) _))).
      eexists _, [l1; l2; _]. split; [rewrite <- !app_assoc; reflexivity|].
      change (h ++ [l1; l2; ?x]) with (h ++ [l1] ++ [l2] ++ [x]). rewrite !app_assoc.
      assert (W1 : wf_heap (h ++ [l1])) by (apply wf_snoc; auto; now cbn).
      assert (W2 : wf_heap ((h ++ [l1]) ++ [l2])) by (apply wf_snoc; auto; now cbn).
      set (o := OSwitch _ _ _ _).
      assert (W3 : wf_heap (((h ++ [l1]) ++ [l2]) ++ [o])).
      { apply wf_snoc; auto. intros j [<-|[<-|[]]]; rewrite !app_length; cbn; lia. }
      split; auto. rewrite get_last. split; [|reflexivity].
      eapply typed_switch; [rewrite !app_length; cbn; lia|apply get_last| |].
      - eapply typed_later; [apply later_app; exact W3|]. eapply typed_later; [apply later_app; exact W2|].
        eapply (typed_pw _ _ (new_piecewise c k I O s 2 1 None (fun o i => g (length h) [o; i])));
          [apply get_last|rewrite app_length; cbn; lia|now apply new_held].
      - eapply typed_later; [apply later_app; exact W3|].
        eapply (typed_pw _ _ (new_piecewise c k I O s 2 1 None (fun o i => g (length (h ++ [l1])) [o; i])));
          [apply get_last|rewrite !app_length; cbn; lia|now apply new_held]. }
    destruct F as [<-|[<-|[<-|[<-|[<-|[<-|[]]]]]]]; try exact (makes_piecewise _ g h k s I O None None per sc ro ini W Hk Hs HI HO).
    + exact (SW PiecewisePolynomial).
    + exact (SW PiecewiseDiscontinuousPolynomial).
Qed.

Notation makes := (makesq false).
Lemma makes_flat g h t n I O seg per sc ro ini : wf_heap h -> flat_layer t n seg -> 1 <= I -> 1 <= O ->
  makes (high_order_fc_layers g t (mkArgs n I O seg None None per sc ro ini)) h I O.
Proof. apply makes_flatq. Qed.

(** ** Networks *)
Lemma mthen_ok {A B} (m : M A) (k : A -> M B) h a h' : m h = Ok (a, h') -> mthen m k h = k a h'.
Proof. intros E. unfold mthen. now rewrite E. Qed.

(** Modules between layers. *)
Lemma makes_betweenq q nm nl W h : wf_heap h -> (forall f ps, nm = Some (f, ps) -> good q W W f) ->
  (forall k, nl = Some k -> typedq q h k W W /\ is_layer (get h k) = false) ->
  exists b e, between nm nl h = Ok (b, h ++ e) /\ wf_heap (h ++ e) /\
    typed_listq q (h ++ e) W b W /\ (forall k, In k b -> typedq q (h ++ e) k W W /\ is_layer (get (h ++ e) k) = false).
Proof.
  intros Wf N T. unfold between. destruct nm as [(f, ps)|].
  - unfold mthen, alloc, mret. cbn. eexists _, [OModule f ps]. split; [reflexivity|].
    assert (W1 : wf_heap (h ++ [OModule f ps])) by (apply wf_snoc; auto; now cbn). split; auto.
    assert (Q : forall k, In k (length h :: match nl with Some k => [k] | None => [] end) ->
              typedq q (h ++ [OModule f ps]) k W W /\ is_layer (get (h ++ [OModule f ps]) k) = false).
    { intros k [<-|Hk].
      - split; [|now rewrite get_last]. apply (typed_moduleq _ _ f ps); [rewrite app_length; cbn; lia|apply get_last|]. apply (N f ps eq_refl).
      - destruct nl as [k'|]; [|destruct Hk]. destruct Hk as [<-|[]]. destruct (T k' eq_refl) as (T1 & T2).
        split; [eapply typed_later; [now apply later_app|exact T1]|]. rewrite get_app_l; [exact T2|apply T1]. }
    split; [|exact Q]. apply (typed_list_app _ _ W _ [length h]); [apply typed_list_one, Q; now left|].
    destruct nl; [|constructor]. apply typed_list_one, Q. right. now left.
  - unfold mthen, mret. cbn. eexists _, []. rewrite app_nil_r. split; [reflexivity|]. split; auto. destruct nl as [k|]; cbn.
    + split; [apply typed_list_one, T; auto|]. intros k' [<-|[]]. now apply T.
    + split; [constructor|]. intros k' [].
Qed.

Lemma makes_between nm nl W h : wf_heap h -> (forall f ps, nm = Some (f, ps) -> on_width W f) ->
  (forall k, nl = Some k -> typed h k W W /\ is_layer (get h k) = false) ->
  exists b e, between nm nl h = Ok (b, h ++ e) /\ wf_heap (h ++ e) /\
    typed_list (h ++ e) W b W /\ (forall k, In k b -> typed (h ++ e) k W W /\ is_layer (get (h ++ e) k) = false).
Proof. intros Wf N T. apply makes_betweenq; auto. intros f ps E. apply on_width_maps. now apply (N f ps). Qed.

Lemma count_app h L L' : filter (fun k => is_layer (get h k)) (L ++ L') = filter (fun k => is_layer (get h k)) L ++ filter (fun k => is_layer (get h k)) L'.
Proof. apply filter_app. Qed.
Lemma count_later h h' L : later h h' -> (forall k, In k L -> k < length h) ->
  filter (fun k => is_layer (get h' k)) L = filter (fun k => is_layer (get h k)) L.
Proof.
  intros (_ & _ & R) H. apply filter_ext_in. intros k Hk. specialize (R k (H k Hk)). inversion R; reflexivity.
Qed.
Lemma count_none h L : (forall k, In k L -> is_layer (get h k) = false) -> filter (fun k => is_layer (get h k)) L = [].
Proof. induction L as [|k L IH]; intros H; [reflexivity|]. cbn. rewrite H by now left. apply IH. intros j Hj. apply H. now right. Qed.

(** A list of modules from width W to W', with the last module mapping width Wh to Wh when [sq] holds. *)
Definition stateq (q : bool) (h : heap) (L : list nat) (W W' c : nat) : Prop :=
  wf_heap h /\ typed_listq q h W L W' /\ length (filter (fun k => is_layer (get h k)) L) = c.
Lemma state_app {q} h h' L L' W W1 W2 c c' : later h h' -> stateq q h L W W1 c -> typed_listq q h' W1 L' W2 ->
  length (filter (fun k => is_layer (get h' k)) L') = c' -> stateq q h' (L ++ L') W W2 (c + c').
Proof.
  intros R (Wf & T & C) T' C'. split; [apply R|]. split; [eapply typed_list_app; [eapply typed_list_later|]; eauto|].
  rewrite filter_app, app_length, C'. f_equal. rewrite (count_later h h'); auto. intros k Hk. eapply typed_list_lt; eauto.
Qed.
Notation state := (stateq false).

Lemma last_app_ne {A} (l l' : list A) d : l' <> [] -> last (l ++ l') d = last l' d.
Proof.
  intros H. destruct l' as [|a l'] using rev_ind; [now destruct H|]. now rewrite app_assoc, !last_last.
Qed.
Lemma last_app_cases {A} (l l' : list A) d : last (l ++ l') d = last l d \/ In (last (l ++ l') d) l'.
Proof.
  destruct l' as [|a l'] using rev_ind; [left; now rewrite app_nil_r|]. right. rewrite app_assoc, last_last. apply in_or_app. right. now left.
Qed.

Section OneMLP.
Variables (q : bool) (g : rng) (a : mlp_args) (dl : nat).
Let Wh := ma_hidden_width a.
Hypothesis Hnorm : forall f ps, ma_normalization a = Some (f, ps) -> good q Wh Wh f.
Definition ready (h : heap) : Prop :=
  typedq q h dl Wh Wh /\ is_layer (get h dl) = false /\
  forall k, ma_non_linearity a = Some k -> typedq q h k Wh Wh /\ is_layer (get h k) = false.
Lemma ready_later h h' : later h h' -> ready h -> ready h'.
Proof.
  intros R (T & L & N). assert (Q : forall k, k < length h -> is_layer (get h k) = false -> is_layer (get h' k) = false).
  { intros k Hk E. destruct R as (_ & _ & R). specialize (R k Hk). destruct (get h k); try discriminate. inversion R. reflexivity. }
  split; [eapply typed_later; eauto|]. split; [apply Q; auto; apply T|]. intros k Hk. destruct (N k Hk) as (N1 & N2).
  split; [eapply typed_later; eauto|]. apply Q; auto. apply N1.
Qed.

(** One hidden layer: the modules in between, then the layer. *)
Lemma drop_between h L W c : stateq q h L W Wh c -> ready h ->
  exists b e, between (ma_normalization a) (ma_non_linearity a) h = Ok (b, h ++ e) /\ later h (h ++ e) /\ ready (h ++ e) /\
    stateq q (h ++ e) (L ++ b ++ dropout_list a dl) W Wh c /\
    forall k, In k (b ++ dropout_list a dl) -> typedq q (h ++ e) k Wh Wh.
Proof.
  intros St Rd. assert (Rd0 := Rd). destruct Rd as (T & Ld & N). destruct (makes_betweenq q _ _ Wh h (proj1 St) Hnorm N) as (b & e & E & W1 & TL & B).
  assert (Lt := later_app h e W1). exists b, e. split; auto. split; auto. assert (Rd1 := ready_later _ _ Lt Rd0). split; auto.
  assert (D : forall k, In k (dropout_list a dl) -> k = dl) by (unfold dropout_list; destruct Rlt_dec; cbn; intuition).
  assert (Q : forall k, In k (b ++ dropout_list a dl) -> typedq q (h ++ e) k Wh Wh /\ is_layer (get (h ++ e) k) = false).
  { intros k Hk. apply in_app_or in Hk. destruct Hk as [Hk|Hk]; [auto|]. rewrite (D k Hk). exact (conj (proj1 Rd1) (proj1 (proj2 Rd1))). }
  split; [|intros k Hk; now apply Q]. replace c with (c + 0) by lia.
  eapply (state_app h); [exact Lt|exact St| |].
  - eapply typed_list_app; [exact TL|]. unfold dropout_list. destruct Rlt_dec; [|constructor]. apply typed_list_one. exact (proj1 Rd1).
  - rewrite count_none; [reflexivity|]. intros k Hk. now apply Q.
Qed.

Lemma hidden_typed h L W c i n : stateq q h L W Wh c -> ready h -> (n = 0 \/ flat_layer (ma_layer_type a) (or_ints (ma_n_hidden a) (ma_n a)) (ma_hidden_segments a)) ->
  1 <= Wh -> (0 < i -> typedq q h (last L 0) Wh Wh) ->
  exists L' e, mlp_hidden g a dl n i L h = Ok (L', h ++ e) /\ later h (h ++ e) /\ ready (h ++ e) /\ stateq q (h ++ e) L' W Wh (c + n).
Proof.
  revert h L c i. induction n as [|n IH]; intros h L c i St Rd F HW Hl.
  - exists L, []. rewrite app_nil_r. cbn. split; auto. split; [|split; auto; now rewrite Nat.add_0_r].
    replace h with (h ++ []) at 2 by apply app_nil_r. apply later_app. rewrite app_nil_r. apply St.
  - destruct F as [F|F]; [discriminate|].
    destruct (drop_between h L W c St Rd) as (b & e1 & E1 & L1 & R1 & S1 & B1).
    cbn [mlp_hidden]. rewrite (mthen_ok _ _ _ _ _ E1).
    set (h1 := h ++ e1) in *. set (L2 := L ++ b ++ dropout_list a dl) in *.
    assert (M : makesq q (mlp_layer g a (ma_layer_type a) (or_ints (ma_n_hidden a) (ma_n a)) Wh Wh (ma_hidden_segments a)) h1 Wh Wh).
    { apply makes_flatq; auto. apply L1. }
    destruct M as (k & e2 & E2 & W2 & T2 & Y2). fold Wh. rewrite (mthen_ok _ _ _ _ _ E2).
    set (h2 := h1 ++ e2) in *. assert (Lt2 := later_app h1 e2 W2). fold h2 in Lt2.
    assert (Hlast : 0 < i -> typedq q h2 (last L2 0) Wh Wh).
    { intros Hi. eapply typed_later; [exact Lt2|]. destruct (last_app_cases L (b ++ dropout_list a dl) 0) as [Q|Q].
      - unfold L2. rewrite Q. eapply typed_later; [exact L1|auto].
      - apply B1. exact Q. }
    assert (K : exists k' e3, (if (ma_resnet a && Nat.ltb 0 i)%bool then alloc (fun _ => OSum [k; last L2 0]) else mret k) h2 = Ok (k', h2 ++ e3) /\
              wf_heap (h2 ++ e3) /\ typedq q (h2 ++ e3) k' Wh Wh /\ is_layer (get (h2 ++ e3) k') = true).
    { destruct (ma_resnet a && Nat.ltb 0 i)%bool eqn:Er.
      - apply andb_prop in Er. destruct Er as (_ & Er). apply Nat.ltb_lt in Er. specialize (Hlast Er).
        unfold alloc. eexists _, _. split; [reflexivity|].
        assert (W3 : wf_heap (h2 ++ [OSum [k; last L2 0]])).
        { apply wf_snoc; auto. intros j [<-|[<-|[]]]; [exact (proj1 T2)|exact (proj1 Hlast)]. }
        split; auto. split; [|now rewrite get_last].
        eapply typed_sum; [rewrite app_length; cbn; lia|apply get_last|eapply typed_later; [now apply later_app|exact T2]|eapply typed_later; [now apply later_app|exact Hlast]].
      - exists k, []. rewrite app_nil_r. unfold mret. auto. }
    destruct K as (k' & e3 & E3 & W3 & T3 & Y3). rewrite (mthen_ok _ _ _ _ _ E3).
    assert (Lt3 := later_app h2 e3 W3).
    assert (S3 : stateq q (h2 ++ e3) (L2 ++ [k']) W Wh (c + 1)).
    { eapply (state_app h1); [eapply later_trans; [exact Lt2|exact Lt3]|exact S1|now apply typed_list_one|]. cbn. now rewrite Y3. }
    destruct (IH _ _ (c + 1) (S i) S3) as (L' & e4 & E4 & L4 & R4 & S4); auto.
    + eapply ready_later; [exact Lt3|]. eapply ready_later; [exact Lt2|exact R1].
    + intros _. rewrite last_last. exact T3.
    + exists L', (e1 ++ e2 ++ e3 ++ e4). rewrite E4.
      assert (A : h ++ e1 ++ e2 ++ e3 ++ e4 = (h2 ++ e3) ++ e4) by (unfold h2, h1; now rewrite !app_assoc).
      rewrite A. split; auto. split; [|split; auto; now replace (c + S n) with (c + 1 + n) by lia].
      eapply later_trans; [exact L1|]. eapply later_trans; [exact Lt2|]. eapply later_trans; [exact Lt3|exact L4].
Qed.
End OneMLP.

Lemma mlp_typedq q g a h : wf_heap h -> flat_mlp h a ->
  (forall f ps, ma_normalization a = Some (f, ps) -> good q (ma_hidden_width a) (ma_hidden_width a) f) ->
  (forall k f ps, ma_non_linearity a = Some k -> get h k = OModule f ps -> good q (ma_hidden_width a) (ma_hidden_width a) f) ->
  exists net e, HighOrderMLP g a h = Ok (net, h ++ e) /\ wf_heap (h ++ e) /\ typedq q (h ++ e) net (ma_in_width a) (ma_out_width a) /\
    length (network_layers (h ++ e) net) = ma_hidden_layers a + 2.
Proof.
  intros W F Fn Fg. destruct F as [Fi Fh Fo (Hi & Hh & Ho) _ Fa (D0 & D1)]. unfold HighOrderMLP.
  destruct (Rlt_dec (ma_dropout a) 0) as [C|_]; [lra|]. destruct (Rlt_dec 1 (ma_dropout a)) as [C|_]; [lra|].
  unfold alloc at 1, mthen at 1. set (h0 := h ++ [OModule (fun x => Ok x) []]). set (dl := length h).
  assert (W0 : wf_heap h0) by (apply wf_snoc; auto; now cbn). assert (Lt0 : later h h0) by now apply later_app.
  assert (G0 : get h0 dl = OModule (fun x => Ok x) []) by apply get_last.
  assert (Rd0 : ready q a dl h0).
  { split; [|split].
    - eapply typed_moduleq; [unfold h0, dl; rewrite app_length; cbn; lia|exact G0|]. apply good_id.
    - now rewrite G0.
    - intros k Hk. destruct (Fa k Hk) as (Lk & f & ps & Ek & Pk).
      assert (Gk : get h0 k = OModule f ps) by (unfold h0; now rewrite get_app_l).
      split; [|now rewrite Gk]. eapply typed_moduleq; [unfold h0; rewrite app_length; lia|exact Gk|exact (Fg k f ps Hk Ek)]. }
  destruct (makes_flatq q g h0 _ _ (ma_in_width a) (ma_hidden_width a) _ (ma_periodicity a) (ma_scale a) (ma_rescale_output a) (ma_initialization a) W0 Fi Hi Hh)
    as (k1 & e1 & E1 & W1 & T1 & Y1).
  unfold mlp_layer at 1. rewrite (mthen_ok _ _ _ _ _ E1). assert (Lt1 := later_app _ _ W1).
  set (h1 := h0 ++ e1) in *.
  destruct (hidden_typed q g a dl Fn h1 [k1] (ma_in_width a) 1 0 (ma_hidden_layers a)) as (L & e2 & E2 & Lt2 & R2 & S2).
  { split; auto. split; [now apply typed_list_one|]. cbn. now rewrite Y1. }
  { eapply ready_later; eauto. }
  { exact Fh. }
  { exact Hh. }
  { lia. }
  rewrite (mthen_ok _ _ _ _ _ E2). set (h2 := h1 ++ e2) in *.
  destruct (drop_between q a dl Fn h2 L _ _ S2 R2) as (b & e3 & E3 & Lt3 & R3 & S3 & B3).
  rewrite (mthen_ok _ _ _ _ _ E3). set (h3 := h2 ++ e3) in *.
  destruct (makes_flatq q g h3 _ _ (ma_hidden_width a) (ma_out_width a) _ (ma_periodicity a) (ma_scale a) (ma_rescale_output a) (ma_initialization a) (proj1 Lt3) Fo Hh Ho)
    as (k2 & e4 & E4 & W4 & T4 & Y4).
  unfold mlp_layer at 1. rewrite (mthen_ok _ _ _ _ _ E4). assert (Lt4 := later_app _ _ W4). set (h4 := h3 ++ e4) in *.
  assert (S4 : stateq q h4 (L ++ b ++ dropout_list a dl ++ [k2]) (ma_in_width a) (ma_out_width a) (ma_hidden_layers a + 2)).
  { replace (L ++ b ++ dropout_list a dl ++ [k2]) with ((L ++ b ++ dropout_list a dl) ++ [k2]) by now rewrite <- !app_assoc.
    replace (ma_hidden_layers a + 2) with ((1 + ma_hidden_layers a) + 1) by lia.
    eapply (state_app h3); [exact Lt4|exact S3|now apply typed_list_one|]. cbn. now rewrite Y4. }
  set (ls := L ++ b ++ dropout_list a dl ++ [k2]) in *. destruct S4 as (_ & TL & C).
  unfold mthen, alloc. cbv beta iota zeta. set (h5 := h4 ++ [OSequential ls]).
  assert (W5 : wf_heap h5). { apply wf_snoc; auto. cbn. intros j Hj. eapply typed_list_lt; eauto. }
  set (om := OMLP dl k1 k2 (length h4)).
  assert (Hd : forall p p', later p p' -> length p <= length p') by (intros p p' (_ & Q & _); exact Q).
  assert (W6 : wf_heap (h5 ++ [om])).
  { apply wf_snoc; auto. intros j Hj. unfold h5. rewrite app_length. cbn in *. pose proof (Hd _ _ Lt1). pose proof (Hd _ _ Lt2).
    pose proof (Hd _ _ Lt3). pose proof (Hd _ _ Lt4). destruct T1 as (T1 & _). destruct T4 as (T4 & _). destruct Rd0 as ((Rd0 & _) & _).
    destruct Hj as [<-|[<-|[<-|[<-|[]]]]]; lia. }
  eexists _, ([OModule (fun x => Ok x) []] ++ e1 ++ e2 ++ e3 ++ e4 ++ [OSequential ls] ++ [om]).
  assert (A : h ++ [OModule (fun x => Ok x) []] ++ e1 ++ e2 ++ e3 ++ e4 ++ [OSequential ls] ++ [om] = h5 ++ [om])
    by (unfold h5, h4, h3, h2, h1, h0; now rewrite !app_assoc).
  rewrite A. split; [reflexivity|]. split; auto.
  assert (Gm : get (h5 ++ [om]) (length h4) = OSequential ls).
  { rewrite get_app_l by (unfold h5; rewrite app_length; cbn; lia). apply get_last. }
  assert (Lt5 : later h4 (h5 ++ [om])).
  { eapply later_trans; [apply (later_app h4 [OSequential ls] W5)|]. now apply later_app. }
  split.
  - apply typed_good; [rewrite app_length; cbn; lia|]. intros h' R.
    assert (Q : get h' (length h5) = om).
    { destruct R as (_ & _ & R). specialize (R (length h5)). rewrite get_last, app_length in R. cbn in R. specialize (R ltac:(lia)).
      inversion R; auto. }
    rewrite Q. cbn. assert (T : typedq q (h5 ++ [om]) (length h4) (ma_in_width a) (ma_out_width a)).
    { eapply typed_sequential; [unfold h5; rewrite !app_length; cbn; lia|exact Gm|]. eapply typed_list_later; eauto. }
    now apply (proj2 T).
  - unfold network_layers, model_of. rewrite get_last. unfold om at 1. rewrite Gm. rewrite <- C.
    rewrite (count_later h4 (h5 ++ [om])); auto. intros k Hk. eapply typed_list_lt; eauto.
Qed.
Lemma mlp_typed g a h : wf_heap h -> flat_mlp h a ->
  exists net e, HighOrderMLP g a h = Ok (net, h ++ e) /\ wf_heap (h ++ e) /\ typed (h ++ e) net (ma_in_width a) (ma_out_width a) /\
    length (network_layers (h ++ e) net) = ma_hidden_layers a + 2.
Proof.
  intros W F. apply mlp_typedq; auto.
  - intros f ps E. apply on_width_maps. exact (fm_norm _ _ F f ps E).
  - intros k f ps E G. destruct (fm_act _ _ F k E) as (_ & f' & ps' & G' & P). apply on_width_maps. rewrite G in G'. injection G' as -> _. exact P.
Qed.
