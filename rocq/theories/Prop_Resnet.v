(** * C112: what a HighOrderMLP with [resnet=True] computes. *)
From Coq Require Import String Reals ZArith List Lia Lra Psatz Bool Arith.
From Verif Require Import Spec Tensor Utils LagrangePolynomial Basis PolynomialLayers ProductLayer LagrangeND Layers Networks Dropout Observe ObserveNet
  SumFacts TensorFacts LagrangeFacts LayerFacts SegmentFacts LayerProofs LebesgueFacts HeapFacts NetFacts Prop_Init Prop_Bounds Prop_Approx Prop_Universal Prop_Lipschitz Prop_Stages Prop_Dropout.
Import ListNotations.
Local Open Scope R_scope.

(** ** Functions of one sample *)
Definition action := (nat -> R) -> nat -> R.
(** The module [f] applies [act] to each sample of a batch of vectors of [W] entries. *)
Definition rowwise (W : nat) (f : tensor R -> res (tensor R)) (act : action) : Prop :=
  (forall x B, shape x = [B; W] -> exists y, f x = Ok y /\ shape y = [B; W] /\ forall b i, (b < B)%nat -> (i < W)%nat -> at_ y [b; i] = act (row x b) i) /\
  (forall v v', (forall i, (i < W)%nat -> v i = v' i) -> forall i, (i < W)%nat -> act v i = act v' i).
Definition same_input : action := fun v => v.
(** The sum of the outputs of some layers on one input. *)
Fixpoint sum_of (ls : list piecewise) : action := fun v o => match ls with [] => 0 | l :: ls => layer_out l v o + sum_of ls v o end.

(** Hidden layers [ls] and an output layer [lo], each after the modules in between, [A].  From the second hidden layer on something
    is added to the output of the layer: [skip u], or the outputs of all earlier hidden layers, where [u] is the input of the layer. *)
Fixpoint residual (A : action) (skip : option action) (earlier ls : list piecewise) (lo : piecewise) (v : nat -> R) : nat -> R :=
  match ls with
  | [] => layer_out lo (A v)
  | l :: ls =>
      let u := A v in
      residual A skip (l :: earlier) ls lo
        (match earlier with
         | [] => layer_out l u
         | _ => fun o => layer_out l u o + match skip with Some s => s u o | None => sum_of earlier u o end
         end)
  end.
(** The same in training: [drop] before each layer, and once more on what is added. *)
Fixpoint residual_dropped (p : R) (A : action) (keep : nat -> nat -> bool) (first : bool) (ls : list piecewise) (lo : piecewise) (v : nat -> R) : nat -> R :=
  match ls with
  | [] => layer_out lo (drop p (keep O) (A v))
  | l :: ls =>
      let u := drop p (keep O) (A v) in
      if first then residual_dropped p A (fun j => keep (S j)) false ls lo (layer_out l u)
      else residual_dropped p A (fun j => keep (S (S j))) false ls lo (fun o => layer_out l u o + drop p (keep 1%nat) u o)
  end.

(** The layers of a network in order: those in the sequence, and the first of each SumLayer. *)
Definition own_layer (h : heap) (k : nat) : list nat :=
  match get h k with OPiecewise _ => [k] | OSum (k :: _) => [k] | _ => [] end.
Definition resnet_layers (h : heap) (net : nat) : list nat :=
  match model_of h net with Ok m => match get h m with OSequential L => flat_map (own_layer h) L | _ => [] end | Err _ => [] end.

Definition resnet_args (t : string) (n d m layers width si sh so : nat) (nm : option norm_class) (nlo : option nat) (p : R) : mlp_args :=
  mkMLP t (Int n) d m layers width 2 None None None false None nlo (Some (Int si)) (Some (Int so)) (Some (Int sh)) nm true None "constant_random"%string p.

(** ** The objects of such a network *)
Definition olist (o : option nat) : list nat := match o with Some k => [k] | None => [] end.
(** The modules before one layer, without the dropout: a normalisation module of its own and the shared activation. *)
Definition block (h : heap) (dl : nat) (nm : option norm_class) (nlo : option nat) (b : list nat) : Prop :=
  exists b1, b = b1 ++ olist nlo /\ match nm with Some (f, ps) => exists k, b1 = [k] /\ (k < length h)%nat /\ k <> dl /\ get h k = OModule f ps | None => b1 = [] end.
Inductive hidden_chain (h : heap) (dl : nat) (nm : option norm_class) (nlo : option nat) (D : list nat) (c : cfg) : nat -> bool -> list nat -> list nat -> Prop :=
| hc_nil prev f : hidden_chain h dl nm nlo D c prev f [] []
| hc_first prev b k L ks : block h dl nm nlo b -> is_pw h k c -> hidden_chain h dl nm nlo D c k false L ks ->
    hidden_chain h dl nm nlo D c prev true (b ++ D ++ k :: L) (k :: ks)
| hc_sum prev b s k L ks : block h dl nm nlo b -> get h s = OSum [k; last (prev :: b ++ D) 0%nat] -> is_pw h k c -> hidden_chain h dl nm nlo D c s false L ks ->
    hidden_chain h dl nm nlo D c prev false (b ++ D ++ s :: L) (k :: ks).

Lemma get_sum_lt h k fs : get h k = OSum fs -> (k < length h)%nat.
Proof. intros E. destruct (Nat.lt_ge_cases k (length h)); auto. rewrite get_out in E by auto. discriminate. Qed.
Lemma chain_mono h h' dl nm nlo D c prev f L ks : (length h <= length h')%nat ->
  (forall k f ps, (k < length h)%nat -> get h k = OModule f ps -> get h' k = OModule f ps) ->
  (forall k fs, get h k = OSum fs -> get h' k = OSum fs) -> (forall k c, is_pw h k c -> is_pw h' k c) ->
  hidden_chain h dl nm nlo D c prev f L ks -> hidden_chain h' dl nm nlo D c prev f L ks.
Proof.
  intros Le M1 M2 M3.
  assert (Bl : forall b, block h dl nm nlo b -> block h' dl nm nlo b).
  { intros b (b1 & -> & H). exists b1. split; auto. destruct nm as [[g ps]|]; auto. destruct H as (k & -> & Lk & Nk & G). exists k. split; auto. split; [lia|auto]. }
  induction 1 as [| prev b k L ks Hb Hk C IH | prev b s k L ks Hb Hs Hk C IH]; econstructor; eauto.
Qed.
Lemma chain_app h e dl nm nlo D c prev f L ks : hidden_chain h dl nm nlo D c prev f L ks -> hidden_chain (h ++ e) dl nm nlo D c prev f L ks.
Proof.
  apply chain_mono; [rewrite app_length; lia| | |apply is_pw_app].
  - intros k g ps Lk G. now rewrite get_app_l.
  - intros k fs G. now rewrite get_app_l by (eapply get_sum_lt; eauto).
Qed.
Lemma chain_retrained h h' dl nm nlo D c prev f L ks : retrained h h' -> hidden_chain h dl nm nlo D c prev f L ks -> hidden_chain h' dl nm nlo D c prev f L ks.
Proof.
  intros R. apply chain_mono; [destruct R as (-> & _); lia| | |intros; now apply (is_pw_retrained h)].
  - intros k g ps Lk G. pose proof (retrained_same h h' k R Lk) as Q. now rewrite G in Q.
  - intros k fs G. pose proof (retrained_same h h' k R (get_sum_lt _ _ _ G)) as Q. now rewrite G in Q.
Qed.
Lemma block_app h e dl nm nlo b : block h dl nm nlo b -> block (h ++ e) dl nm nlo b.
Proof.
  intros (b1 & -> & H). exists b1. split; auto. destruct nm as [[g ps]|]; auto. destruct H as (k & -> & Lk & Nk & G). exists k. split; auto. rewrite app_length, get_app_l by auto. split; [lia|auto].
Qed.

Lemma block_built h dl nm nlo : wf_heap h -> (dl < length h)%nat -> exists b e, between nm nlo h = Ok (b, h ++ e) /\ wf_heap (h ++ e) /\ block (h ++ e) dl nm nlo b /\
  (forall k, In k b -> In k (olist nlo) \/ (length h <= k < length (h ++ e))%nat).
Proof.
  intros W Ld. unfold between. destruct nm as [[f ps]|].
  - exists (length h :: olist nlo), [OModule f ps]. split; [destruct nlo; reflexivity|]. split; [apply wf_snoc; auto; intros j []|]. split.
    + exists [length h]. split; [reflexivity|]. exists (length h). rewrite app_length. cbn. split; auto. split; [lia|]. split; [lia|apply get_last].
    + intros k [<-|H]; [right; rewrite app_length; cbn; lia|now left].
  - exists (olist nlo), []. rewrite app_nil_r. split; [destruct nlo; reflexivity|]. split; auto. split; [exists []; auto|auto].
Qed.

Lemma last_snoc_cons (L : list nat) b : L <> [] -> last (L ++ b) 0%nat = last (last L 0%nat :: b) 0%nat.
Proof.
  intros HL. destruct b as [|k b]; [now rewrite app_nil_r|]. change (last (last L 0%nat :: k :: b) 0%nat) with (last (k :: b) 0%nat).
  clear HL. induction L as [|a L IH]; [reflexivity|]. cbn [app]. change (last (a :: L ++ k :: b) 0%nat) with (match L ++ k :: b with [] => a | _ => last (L ++ k :: b) 0%nat end).
  rewrite IH. destruct L; reflexivity.
Qed.

Section Build.
  Variables (t : string) (c : pw_class) (n d m K H si sh so : nat) (nm : option norm_class) (nlo : option nat) (p : R).
  Hypothesis Ht : t = "continuous"%string /\ c = PiecewisePolynomial \/ t = "discontinuous"%string /\ c = PiecewiseDiscontinuousPolynomial.
  Hypotheses (Hn : (1 <= n)%nat) (Hd : (1 <= d)%nat) (Hm : (1 <= m)%nat) (HH : (1 <= H)%nat) (Hsi : (1 <= si)%nat) (Hsh : (1 <= sh)%nat) (Hso : (1 <= so)%nat).
  Let a := resnet_args t n d m K H si sh so nm nlo p.

  Lemma resnet_layer g I O s h : (1 <= I)%nat -> (1 <= O)%nat -> (1 <= s)%nat -> wf_heap h ->
    exists k e, mlp_layer g a t (Int n) I O (Some (Int s)) h = Ok (k, h ++ e) /\ wf_heap (h ++ e) /\ is_pw (h ++ e) k (pw_slot c n I O s None).
  Proof.
    intros HI HO Hs W. destruct (mlp_layer_spec g a t n I O s h) as (k & e & E & W' & _ & D & _); auto; [unfold refinable_type; tauto|].
    exists k, e. split; [exact E|]. split; [exact W'|]. specialize (D 0%nat 0%nat). cbn [a resnet_args ma_periodicity] in D.
    replace (layer_slot t n I O s None) with (SP (pw_slot c n I O s None)) in D by (destruct Ht as [(-> & ->)|(-> & ->)]; reflexivity). apply D.
  Qed.

  Lemma resnet_hidden g dl : forall N i L h, wf_heap h -> L <> [] -> (forall k, In k (L ++ olist nlo) -> (k < length h)%nat) -> (dl < length h)%nat ->
    exists T ks e, mlp_hidden g a dl N i L h = Ok (L ++ T, h ++ e) /\ wf_heap (h ++ e) /\ (forall k, In k (L ++ T) -> (k < length (h ++ e))%nat) /\
      hidden_chain (h ++ e) dl nm nlo (dropout_list a dl) (pw_slot c n H H sh None) (last L 0%nat) (Nat.eqb i 0) T ks /\ length ks = N.
  Proof.
    induction N as [|N IH]; intros i L h W HL Lt Ld.
    - exists [], [], []. cbn [mlp_hidden]. rewrite !app_nil_r. split; [reflexivity|]. split; auto. split; [intros; apply Lt, in_or_app; auto|]. split; [constructor|reflexivity].
    - cbn [mlp_hidden]. destruct (block_built h dl nm nlo W Ld) as (b & e1 & E1 & W1 & B1 & I1).
      change (ma_normalization a) with nm. change (ma_non_linearity a) with nlo. unfold mthen at 1. rewrite E1. cbn zeta.
      destruct (resnet_layer g H H sh _ HH HH Hsh W1) as (k & e2 & E2 & W2 & P2). unfold mthen at 1.
      change (mlp_layer g a (ma_layer_type a) (or_ints (ma_n_hidden a) (ma_n a)) (ma_hidden_width a) (ma_hidden_width a) (ma_hidden_segments a) (h ++ e1)) with (mlp_layer g a t (or_ints None (Int n)) H H (Some (Int sh)) (h ++ e1)).
      change (or_ints None (Int n)) with (Int n). rewrite E2. change (ma_resnet a) with true. cbn [andb].
      set (D := dropout_list a dl) in *.
      assert (LD : forall k, In k D -> (k < length h)%nat) by (intros j Hj; unfold D, dropout_list in Hj; destruct Rlt_dec; [destruct Hj as [<-|[]]; auto|easy]).
      assert (LB : forall k, In k (L ++ b ++ D) -> (k < length ((h ++ e1) ++ e2))%nat).
      { intros j Hj. rewrite !app_length. apply in_app_or in Hj. destruct Hj as [Hj|Hj]; [specialize (Lt j ltac:(apply in_or_app; auto)); lia|].
        apply in_app_or in Hj. destruct Hj as [Hj|Hj]; [|specialize (LD j Hj); lia]. destruct (I1 j Hj) as [Q|Q]; [specialize (Lt j ltac:(apply in_or_app; auto)); lia|]. rewrite app_length in Q. lia. }
      pose proof (is_pw_lt _ _ _ P2) as Lk.
      destruct (Nat.ltb_spec 0 i) as [Hi|Hi].
      + unfold mthen at 1. cbn [alloc]. set (h3 := ((h ++ e1) ++ e2) ++ [OSum [k; last (L ++ b ++ D) 0%nat]]). set (s := length ((h ++ e1) ++ e2)) in *.
        assert (W3 : wf_heap h3).
        { apply wf_snoc; auto. intros j [<-|[<-|[]]]; auto. fold s. apply LB. rewrite last_snoc_cons by auto.
          assert (In (last L 0%nat) L) by (destruct L; [easy|]; apply (@exists_last nat) in HL; destruct HL as (L' & x & ->); rewrite last_last; apply in_or_app; right; now left).
          destruct (b ++ D) as [|x r] eqn:Eb; [apply in_or_app; now left|]. apply in_or_app. right. change (last (last L 0%nat :: x :: r) 0%nat) with (last (x :: r) 0%nat).
          assert (Q : x :: r <> []) by discriminate. apply (@exists_last nat) in Q. destruct Q as (r' & y & ->). rewrite last_last. apply in_or_app. right. now left. }
        assert (L3 : length h3 = S s) by (unfold h3; rewrite app_length; fold s; cbn; lia).
        destruct (IH (S i) (L ++ b ++ D ++ [s]) h3 W3) as (T & ks & e & E & We & Le & C & Lks).
        { intros Q. apply (f_equal (@length _)) in Q. rewrite !app_length in Q. cbn in Q. lia. }
        { intros j Hj. rewrite L3. apply in_app_or in Hj. destruct Hj as [Hj|Hj]; [|specialize (Lt j ltac:(apply in_or_app; auto)); unfold s; rewrite !app_length; lia].
          rewrite !app_assoc in Hj. apply in_app_or in Hj. destruct Hj as [Hj|[<-|[]]]; [|lia]. rewrite <- app_assoc in Hj. specialize (LB j Hj). lia. }
        { rewrite L3. unfold s. rewrite !app_length. lia. }
        exists (b ++ D ++ s :: T), (k :: ks), (e1 ++ e2 ++ [OSum [k; last (L ++ b ++ D) 0%nat]] ++ e).
        replace (h ++ e1 ++ e2 ++ [OSum [k; last (L ++ b ++ D) 0%nat]] ++ e) with (h3 ++ e) by (unfold h3; now rewrite <- !app_assoc).
        replace (L ++ b ++ D ++ s :: T) with ((L ++ b ++ D ++ [s]) ++ T) by (rewrite <- !app_assoc; reflexivity).
        rewrite <- (app_assoc L). rewrite <- (app_assoc b). split; [exact E|]. split; auto. split; auto. split; [|cbn; congruence].
        replace (i =? 0)%nat with false by (symmetry; apply Nat.eqb_neq; lia).
        apply hc_sum.
        * unfold h3. rewrite <- !app_assoc. rewrite (app_assoc h). now apply block_app.
        * rewrite get_app_l by lia. unfold h3. unfold s. rewrite get_last. now rewrite last_snoc_cons.
        * unfold h3. rewrite <- !app_assoc, (app_assoc h), (app_assoc (h ++ e1)). now apply is_pw_app.
        * rewrite !app_assoc, last_last in C. exact C.
      + unfold mthen at 1. cbn [mret].
        destruct (IH (S i) (L ++ b ++ D ++ [k]) _ W2) as (T & ks & e & E & We & Le & C & Lks).
        { intros Q. apply (f_equal (@length _)) in Q. rewrite !app_length in Q. cbn in Q. lia. }
        { intros j Hj. apply in_app_or in Hj. destruct Hj as [Hj|Hj]; [|specialize (Lt j ltac:(apply in_or_app; auto)); rewrite !app_length; lia].
          rewrite !app_assoc in Hj. apply in_app_or in Hj. destruct Hj as [Hj|[<-|[]]]; [|lia]. rewrite <- app_assoc in Hj. exact (LB j Hj). }
        { rewrite !app_length. lia. }
        exists (b ++ D ++ k :: T), (k :: ks), (e1 ++ e2 ++ e).
        replace (h ++ e1 ++ e2 ++ e) with (((h ++ e1) ++ e2) ++ e) by (now rewrite <- !app_assoc).
        replace (L ++ b ++ D ++ k :: T) with ((L ++ b ++ D ++ [k]) ++ T) by (rewrite <- !app_assoc; reflexivity).
        rewrite <- (app_assoc L). rewrite <- (app_assoc b). split; [exact E|]. split; auto. split; auto. split; [|cbn; congruence].
        replace (i =? 0)%nat with true by (symmetry; apply Nat.eqb_eq; lia).
        apply hc_first.
        * rewrite <- !app_assoc. rewrite (app_assoc h). now apply block_app.
        * now apply is_pw_app.
        * rewrite !app_assoc, last_last in C. exact C.
  Qed.

  Lemma resnet_view g h0 net h1 h : wf_heap h0 -> 0 <= p <= 1 -> (forall k, nlo = Some k -> (k < length h0)%nat) ->
    HighOrderMLP g a h0 = Ok (net, h1) -> retrained h1 h ->
    exists dl k1 k2 q T b ks, wf_heap h /\ get h net = OMLP dl k1 k2 q /\ (net < length h)%nat /\ (q < length h)%nat /\
      get h q = OSequential (k1 :: T ++ b ++ dropout_list a dl ++ [k2]) /\ (dl < length h)%nat /\ (length h0 <= dl)%nat /\ get h dl = OModule (fun x => Ok x) [] /\
      is_pw h k1 (pw_slot c n d H si None) /\ is_pw h k2 (pw_slot c n H m so None) /\ block h dl nm nlo b /\ length ks = K /\
      hidden_chain h dl nm nlo (dropout_list a dl) (pw_slot c n H H sh None) k1 true T ks /\ (forall k, (k < length h0)%nat -> reweighted (get h0 k) (get h k)).
  Proof.
    intros W Hp Hk E Rt. unfold HighOrderMLP in E. change (ma_dropout a) with p in E.
    destruct Rlt_dec as [Q|_]; [lra|]. destruct Rlt_dec as [Q|_]; [lra|]. unfold mthen at 1 in E. cbn [alloc] in E.
    set (dl := length h0) in *. set (h2 := h0 ++ [OModule (fun x => Ok x) []]) in *.
    assert (W2 : wf_heap h2) by (apply wf_snoc; auto; intros j []).
    destruct (resnet_layer g d H si h2 Hd HH Hsi W2) as (k1 & e1 & E1 & W3 & P1). unfold mthen at 1 in E.
    change (mlp_layer g a (or_string (ma_layer_type_in a) (ma_layer_type a)) (or_ints (ma_n_in a) (ma_n a)) (ma_in_width a) (ma_hidden_width a) (ma_in_segments a) h2) with (mlp_layer g a t (Int n) d H (Some (Int si)) h2) in E.
    rewrite E1 in E. pose proof (is_pw_lt _ _ _ P1) as Lk1.
    assert (L2 : length h2 = S dl) by (unfold h2; rewrite app_length; cbn; lia).
    destruct (resnet_hidden g dl K 0 [k1] _ W3 ltac:(discriminate)) as (T & ks & e2 & E2 & W4 & Lt & C & Lks).
    { intros j [<-|Hj]; auto. unfold olist in Hj. destruct nlo as [k|] eqn:Ek; [|easy]. destruct Hj as [<-|[]]. specialize (Hk k eq_refl). rewrite app_length. lia. }
    { rewrite app_length. lia. }
    unfold mthen at 1 in E. change (ma_hidden_layers a) with K in E. rewrite E2 in E. cbn [last Nat.eqb] in C.
    destruct (block_built _ dl nm nlo W4 ltac:(rewrite !app_length; lia)) as (b & e3 & E3 & W5 & B3 & I3). unfold mthen at 1 in E. change (ma_normalization a) with nm in E. change (ma_non_linearity a) with nlo in E. rewrite E3 in E.
    destruct (resnet_layer g H m so _ HH Hm Hso W5) as (k2 & e4 & E4 & W6 & P4). unfold mthen at 1 in E.
    change (mlp_layer g a (ma_layer_type a) (or_ints (ma_n_out a) (ma_n a)) (ma_hidden_width a) (ma_out_width a) (ma_out_segments a)) with (mlp_layer g a t (Int n) H m (Some (Int so))) in E.
    rewrite E4 in E. unfold mthen at 1 in E. cbn [alloc] in E.
    set (h5 := (((h2 ++ e1) ++ e2) ++ e3) ++ e4) in *. cbn [app] in E. injection E as En Eh. rewrite app_length in En. cbn [length] in En.
    set (Ls := k1 :: T ++ b ++ dropout_list a dl ++ [k2]) in *.
    pose proof (is_pw_lt _ _ _ P4) as Lk2.
    assert (LLs : forall k, In k Ls -> (k < length h5)%nat).
    { intros j [<-|Hj]; [unfold h5; rewrite !app_length in *; lia|]. apply in_app_or in Hj. destruct Hj as [Hj|Hj].
      - specialize (Lt j ltac:(now right)). unfold h5. rewrite !app_length in *. lia.
      - apply in_app_or in Hj. destruct Hj as [Hj|Hj].
        + destruct (I3 j Hj) as [Q|Q]; [|unfold h5; rewrite !app_length in *; lia]. unfold olist in Q. destruct nlo as [k|] eqn:Ek; [|easy]. destruct Q as [<-|[]]. specialize (Hk k eq_refl). unfold h5. rewrite !app_length. lia.
        + apply in_app_or in Hj. destruct Hj as [Hj|[<-|[]]]; auto. unfold dropout_list in Hj. destruct Rlt_dec; [|easy]. destruct Hj as [<-|[]]. unfold h5. rewrite !app_length. lia. }
    assert (W7 : wf_heap (h5 ++ [OSequential Ls])) by (apply wf_snoc; auto).
    assert (W8 : wf_heap h1).
    { rewrite <- Eh. apply wf_snoc; auto. rewrite app_length. cbn [length refs]. intros j [<-|[<-|[<-|[<-|[]]]]]; try lia.
      - unfold h5. rewrite !app_length. lia.
      - unfold h5. rewrite !app_length in *. lia. }
    assert (X : h1 = h5 ++ [OSequential Ls; OMLP dl k1 k2 (length h5)]) by (rewrite <- Eh, <- app_assoc; reflexivity). clear Eh.
    assert (S0 : forall k, (k < length h5)%nat -> get h1 k = get h5 k) by (intros; rewrite X; now apply get_app_l).
    assert (S1 : get h1 (length h5) = OSequential Ls) by (rewrite X; replace (length h5) with (length h5 + 0)%nat at 2 by lia; apply get_app_r).
    assert (S2 : get h1 net = OMLP dl k1 k2 (length h5)) by (rewrite <- En, X, get_app_r; reflexivity).
    assert (Ll : length h1 = S (S (length h5))) by (rewrite X, app_length; cbn; lia).
    assert (A5 : h5 = h0 ++ ([OModule (fun x => Ok x) []] ++ e1 ++ e2 ++ e3 ++ e4)) by (unfold h5, h2; now rewrite <- !app_assoc).
    assert (Ld : (dl < length h5)%nat) by (unfold h5; rewrite !app_length; lia).
    assert (Gd : get h1 dl = OModule (fun x => Ok x) []).
    { rewrite S0 by auto. rewrite A5. unfold dl. replace (length h0) with (length h0 + 0)%nat by lia. rewrite get_app_r. reflexivity. }
    exists dl, k1, k2, (length h5), T, b, ks. split; [now apply (retrained_wf h1)|].
    assert (Len : length h = length h1) by (destruct Rt; auto).
    assert (Sm : forall k, (k < length h1)%nat -> match get h1 k with OPiecewise _ | OFunc _ | OPolyND _ | OPiecewiseND _ | OProduct _ | OLinear _ _ => True | o => get h k = o end) by (intros; now apply retrained_same).
    split; [specialize (Sm net); rewrite S2 in Sm; apply Sm; lia|]. split; [lia|]. split; [lia|].
    split; [specialize (Sm (length h5)); rewrite S1 in Sm; apply Sm; lia|]. split; [lia|]. split; [lia|].
    split; [specialize (Sm dl); rewrite Gd in Sm; apply Sm; lia|].
    split; [apply (is_pw_retrained h1); auto; rewrite X; unfold h5; rewrite <- !app_assoc, app_assoc; now apply is_pw_app|].
    split; [apply (is_pw_retrained h1); auto; rewrite X; now apply is_pw_app|].
    split.
    { assert (B1 : block h1 dl nm nlo b) by (rewrite X; unfold h5; do 2 apply block_app; exact B3). destruct B1 as (b1 & -> & Hb). exists b1. split; auto.
      destruct nm as [[f ps]|]; auto. destruct Hb as (k & -> & Lk & Nk & G). exists k. split; auto. split; [lia|]. split; [auto|]. specialize (Sm k Lk). now rewrite G in Sm. }
    split; auto. split.
    { apply (chain_retrained h1); auto. rewrite X. unfold h5. do 3 apply chain_app. exact C. }
    intros k Lk. destruct Rt as (_ & Rt). replace (get h0 k) with (get h1 k); [apply Rt; lia|]. rewrite S0 by (unfold dl in Ld; lia). rewrite A5. now apply get_app_l.
  Qed.
End Build.

(** ** What they compute *)
Lemma sum_rows x y B W : shape x = [B; W] -> shape y = [B; W] -> exists z, sum_outputs [x; y] = Ok z /\ shape z = [B; W] /\
  forall b i, (b < B)%nat -> (i < W)%nat -> at_ z [b; i] = at_ x [b; i] + at_ y [b; i].
Proof.
  intros Sx Sy. unfold sum_outputs, broadcast2. rewrite Sx, Sy. unfold bshape. cbn [rev app bshape_rev].
  rewrite !bsize_refl. cbn [rev app]. eexists. split; [reflexivity|]. split; [reflexivity|]. intros b i Hb Hi. cbn [at_].
  unfold bindex. cbn [length Nat.sub skipn bc_list]. now rewrite !bc_id by auto.
Qed.
Lemma run_app c L L' x : run c (L ++ L') x = (y <- run c L x ;; run c L' y).
Proof. revert x. induction L as [|k L IH]; intros x; [reflexivity|]. cbn [app run]. destruct (c k x); cbn [rbind]; auto. Qed.
Lemma rowwise_run_nil W c : rowwise W (run c []) same_input.
Proof. split; [|auto]. intros x B Hx. exists x. auto. Qed.
Lemma rowwise_run_cons W c k L f g : rowwise W (c k) f -> rowwise W (run c L) g -> rowwise W (run c (k :: L)) (fun v => g (f v)).
Proof.
  intros (F & Lf) (G & Lg). split; [|intros v v' E; apply Lg; now apply Lf]. intros x B Hx. destruct (F x B Hx) as (y & Ey & Sy & Vy). destruct (G y B Sy) as (z & Ez & Sz & Vz).
  exists z. cbn [run]. rewrite Ey. cbn [rbind]. split; auto. split; auto. intros b i Hb Hi. rewrite Vz by auto. apply Lg; auto. intros j Hj. unfold row at 1. now apply Vy.
Qed.
Lemma rowwise_run_app W c L L' f g : rowwise W (run c L) f -> rowwise W (run c L') g -> rowwise W (run c (L ++ L')) (fun v => g (f v)).
Proof.
  intros (F & Lf) (G & Lg). split; [|intros v v' E; apply Lg; now apply Lf]. intros x B Hx. destruct (F x B Hx) as (y & Ey & Sy & Vy). destruct (G y B Sy) as (z & Ez & Sz & Vz).
  exists z. split; [rewrite run_app, Ey; exact Ez|]. split; auto. intros b i Hb Hi. rewrite Vz by auto. apply Lg; auto. intros j Hj. unfold row at 1. now apply Vy.
Qed.
Lemma rowwise_layer h k l W : wf_heap h -> get h k = OPiecewise l -> held l -> pw_in l = W -> pw_out l = W -> rowwise W (call h k) (layer_out l).
Proof.
  intros Wf G Hl <- Eo. split.
  - intros x B Hx. destruct (forward_rows l x B Hl Hx) as (y & E & Sy & V). rewrite <- Eo. exists y. rewrite call_unfold, G by (auto; now apply (get_pw_lt _ _ _ G)). auto.
  - intros v v' E i Hi. apply layer_out_local; auto. lia.
Qed.
Lemma rowwise_sum h s k j f g W : wf_heap h -> get h s = OSum [k; j] -> rowwise W (call h k) f -> rowwise W (call h j) g -> rowwise W (call h s) (fun v o => f v o + g v o).
Proof.
  intros Wf G (F & Lf) (Q & Lq). split; [|intros v v' E i Hi; rewrite (Lf v v'), (Lq v v') by auto; reflexivity].
  intros x B Hx. destruct (F x B Hx) as (y & Ey & Sy & Vy). destruct (Q x B Hx) as (z & Ez & Sz & Vz). destruct (sum_rows y z B W Sy Sz) as (w & Ew & Sw & Vw).
  exists w. rewrite call_unfold, G by (auto; now apply (get_sum_lt _ _ _ G)). cbn [obj_forward all_outputs]. rewrite Ey. cbn [rbind]. rewrite Ez. cbn [rbind]. split; auto. split; auto.
  intros b i Hb Hi. now rewrite Vw, Vy, Vz.
Qed.
Lemma rowwise_ext W c f g : (forall v i, (i < W)%nat -> f v i = g v i) -> rowwise W c f -> rowwise W c g.
Proof.
  intros E (F & L). split.
  - intros x B Hx. destruct (F x B Hx) as (y & Ey & Sy & Vy). exists y. split; auto. split; auto. intros b i Hb Hi. rewrite <- E by auto. auto.
  - intros v v' Ev i Hi. rewrite <- !E by auto. now apply L.
Qed.

Definition hidden_layer (W : nat) (l : piecewise) : Prop := held l /\ pw_in l = W /\ pw_out l = W.

Lemma chain_layers h dl nm nlo D n H sh c prev f T ks : hidden_chain h dl nm nlo D (pw_slot c n H H sh None) prev f T ks ->
  exists ls, Forall2 (fun k l => get h k = OPiecewise l) ks ls /\ Forall (hidden_layer H) ls /\ map cfg_of ls = repeat (pw_slot c n H H sh None) (length ks).
Proof.
  assert (P : forall k, is_pw h k (pw_slot c n H H sh None) -> exists l, get h k = OPiecewise l /\ hidden_layer H l /\ cfg_of l = pw_slot c n H H sh None).
  { intros k (l & G & Hl & C). exists l. split; auto. split; auto. split; auto. unfold cfg_of, pw_slot in C. now injection C. }
  induction 1 as [| prev b k L ks Hb Hk C (ls & F & Hl & M) | prev b s k L ks Hb Hs Hk C (ls & F & Hl & M)]; [exists []; repeat constructor| |];
    destruct (P k Hk) as (l & G & H1 & E); exists (l :: ls); cbn [map length repeat]; rewrite M, E; repeat split; constructor; auto.
Qed.

Section Run.
  Variables (h : heap) (dl : nat) (nm : option norm_class) (nlo : option nat) (D : list nat) (c : cfg) (H : nat) (A : action) (skip : option action) (lo : piecewise) (m : nat).
  Hypothesis Wf : wf_heap h.
  Hypothesis Hb : forall b, block h dl nm nlo b -> rowwise H (run (call h) (b ++ D)) A.
  Hypothesis Hs : forall b prev, block h dl nm nlo b -> match skip with Some s => rowwise H (call h (last (prev :: b ++ D) 0%nat)) s | None => b ++ D = [] end.

  Lemma chain_run prev first T ks : hidden_chain h dl nm nlo D c prev first T ks ->
    forall ls, Forall2 (fun k l => get h k = OPiecewise l) ks ls -> Forall (hidden_layer H) ls ->
    forall earlier, first = (match earlier with [] => true | _ => false end) -> (skip = None -> earlier <> [] -> rowwise H (call h prev) (sum_of earlier)) ->
    forall b k2, block h dl nm nlo b -> get h k2 = OPiecewise lo -> held lo -> pw_in lo = H -> pw_out lo = m ->
    (forall x B, shape x = [B; H] -> exists y, run (call h) (T ++ b ++ D ++ [k2]) x = Ok y /\ shape y = [B; m] /\
      forall r o, (r < B)%nat -> (o < m)%nat -> at_ y [r; o] = residual A skip earlier ls lo (row x r) o) /\
    (forall v v', (forall i, (i < H)%nat -> v i = v' i) -> forall o, (o < m)%nat -> residual A skip earlier ls lo v o = residual A skip earlier ls lo v' o).
  Proof.
    induction 1 as [prev f | prev b0 k T ks Hb0 Hk C IH | prev b0 s k T ks Hb0 Hs0 Hk C IH]; intros ls F Hl earlier Ef Pe b k2 Bb G2 Hlo; inversion F as [|? l ? ls' Gk F']; subst; intros Ei Eo.
    - cbn [app residual]. destruct (Hb b Bb) as (R & Lc). split.
      + intros x B Hx. destruct (R x B Hx) as (y & Ey & Sy & Vy). rewrite <- Ei in Sy. rewrite <- Eo. destruct (forward_rows lo y B Hlo Sy) as (z & Ez & Sz & Vz). exists z. split; [|split; auto].
        * rewrite app_assoc, run_app, Ey. cbn [rbind run]. rewrite call_unfold, G2 by (auto; now apply (get_pw_lt _ _ _ G2)). cbn [obj_forward]. rewrite Ez. reflexivity.
        * intros r o Hr Ho. rewrite Vz by auto. apply layer_out_local; auto. intros i Hi. unfold row at 1. apply Vy; auto. lia.
      + intros v v' E o1 Ho. apply layer_out_local; auto; [lia|]. rewrite Ei. now apply Lc.
    - assert (earlier = []) by (destruct earlier; [reflexivity|discriminate]). subst earlier. pose proof (Forall_inv Hl) as (Hh & I1 & O1).
      pose proof (rowwise_layer h k l H Wf Gk Hh I1 O1) as Rk.
      destruct (IH ls' F' (Forall_inv_tail Hl) [l] eq_refl) with (b := b) (k2 := k2) as (R & Lc); auto.
      { intros _ _. apply (rowwise_ext H _ (layer_out l)); [|exact Rk]. intros v i Hi. cbn [sum_of]. ring. }
      destruct (rowwise_run_app H (call h) (b0 ++ D) [k] A (layer_out l) (Hb b0 Hb0)) as (R0 & L0).
      { apply (rowwise_ext H _ (fun v => same_input (layer_out l v))); [reflexivity|]. apply rowwise_run_cons; [exact Rk|apply rowwise_run_nil]. }
      cbn [residual]. split; [|intros v v' E; apply Lc; now apply L0].
      intros x B Hx. destruct (R0 x B Hx) as (y & Ey & Sy & Vy). destruct (R y B Sy) as (z & Ez & Sz & Vz). exists z. split; [|split; auto].
      + replace ((b0 ++ D ++ k :: T) ++ b ++ D ++ [k2]) with (((b0 ++ D) ++ [k]) ++ (T ++ b ++ D ++ [k2])) by (rewrite <- !app_assoc; reflexivity). rewrite run_app, Ey. exact Ez.
      + intros r o Hr Ho. rewrite Vz by auto. apply Lc; auto. intros i Hi. unfold row at 1. now apply Vy.
    - destruct earlier as [|l0 earlier]; [discriminate|]. pose proof (Forall_inv Hl) as (Hh & I1 & O1).
      pose proof (rowwise_layer h k l H Wf Gk Hh I1 O1) as Rk.
      set (added := match skip with Some s => s | None => sum_of (l0 :: earlier) end).
      assert (Ra : rowwise H (call h (last (prev :: b0 ++ D) 0%nat)) added).
      { specialize (Hs b0 prev Hb0). unfold added. destruct skip as [a|]; [exact Hs|]. rewrite Hs. apply Pe; [reflexivity|discriminate]. }
      pose proof (rowwise_sum h s k _ _ _ H Wf Hs0 Rk Ra) as Rs.
      destruct (IH ls' F' (Forall_inv_tail Hl) (l :: l0 :: earlier) eq_refl) with (b := b) (k2 := k2) as (R & Lc); auto.
      { intros Ek _. unfold added in Rs. rewrite Ek in Rs. exact Rs. }
      destruct (rowwise_run_app H (call h) (b0 ++ D) [s] A (fun v o => layer_out l v o + added v o) (Hb b0 Hb0)) as (R0 & L0).
      { apply (rowwise_ext H _ (fun v => same_input ((fun v o => layer_out l v o + added v o) v))); [reflexivity|]. apply rowwise_run_cons; [exact Rs|apply rowwise_run_nil]. }
      assert (Q : forall v, residual A skip (l0 :: earlier) (l :: ls') lo v = residual A skip (l :: l0 :: earlier) ls' lo (fun o => layer_out l (A v) o + added (A v) o)).
      { intros v. cbn [residual]. unfold added. destruct skip; reflexivity. }
      split; [|intros v v' E; rewrite !Q; apply Lc; now apply L0].
      intros x B Hx. destruct (R0 x B Hx) as (y & Ey & Sy & Vy). destruct (R y B Sy) as (z & Ez & Sz & Vz). exists z. split; [|split; auto].
      + replace ((b0 ++ D ++ s :: T) ++ b ++ D ++ [k2]) with (((b0 ++ D) ++ [s]) ++ (T ++ b ++ D ++ [k2])) by (rewrite <- !app_assoc; reflexivity). rewrite run_app, Ey. exact Ez.
      + intros r o Hr Ho. rewrite Vz, Q by auto. apply Lc; auto. intros i Hi. unfold row at 1. now apply Vy.
  Qed.
End Run.

(** The modules between the layers, as functions of one sample: [N] for the normalisation, [F] for the activation. *)
Definition acts_between (h0 : heap) (H : nat) (nm : option norm_class) (nlo : option nat) (N F : action) : Prop :=
  match nm with Some (f, _) => rowwise H f N | None => N = same_input end /\
  match nlo with Some k => (k < length h0)%nat /\ exists f ps, get h0 k = OModule f ps /\ rowwise H f F | None => F = same_input end.

Lemma rowwise_module h k f ps W act : wf_heap h -> (k < length h)%nat -> get h k = OModule f ps -> rowwise W f act -> rowwise W (call h k) act.
Proof. intros Wf L G (R & Lc). split; auto. intros x B Hx. destruct (R x B Hx) as (y & Ey & Q). exists y. rewrite call_unfold, G by auto. auto. Qed.
Lemma rowwise_one W c k f : rowwise W (c k) f -> rowwise W (run c [k]) f.
Proof. intros R. apply (rowwise_ext W _ (fun v => same_input (f v))); [reflexivity|]. apply rowwise_run_cons; [exact R|apply rowwise_run_nil]. Qed.

Lemma reweighted_module o o' f ps : reweighted o o' -> o = OModule f ps -> o' = OModule f ps.
Proof. intros R E. subst o. now inversion R. Qed.

Section Between.
  Variables (h0 h : heap) (dl : nat) (nm : option norm_class) (nlo : option nat) (H : nat) (N F : action).
  Hypothesis Wf : wf_heap h.
  Hypothesis Old : forall k, (k < length h0)%nat -> reweighted (get h0 k) (get h k).
  Hypothesis Le : (length h0 <= length h)%nat.
  Hypothesis Ac : acts_between h0 H nm nlo N F.

  Lemma activation_rowwise k : nlo = Some k -> (k < length h)%nat /\ (exists f ps, get h k = OModule f ps) /\ rowwise H (call h k) F.
  Proof.
    intros E. destruct Ac as (_ & A2). rewrite E in A2. destruct A2 as (Lk & f & ps & G & R). pose proof (reweighted_module _ _ _ _ (Old k Lk) G) as G'.
    split; [lia|]. split; [eauto|]. apply (rowwise_module h k f ps); auto. lia.
  Qed.
  Lemma block_rowwise b : block h dl nm nlo b -> rowwise H (run (call h) b) (fun v => F (N v)).
  Proof.
    pose proof activation_rowwise as AR. intros (b1 & -> & Hb). apply rowwise_run_app.
    - destruct nm as [[f ps]|] eqn:En.
      + destruct Hb as (k & -> & Lk & _ & G). apply rowwise_one. destruct Ac as (A1 & _). now apply (rowwise_module h k f ps).
      + subst b1. destruct Ac as (A1 & _). rewrite A1. apply rowwise_run_nil.
    - destruct nlo as [k|] eqn:Ek; cbn [olist].
      + apply rowwise_one. now apply AR.
      + destruct Ac as (_ & A2). rewrite A2. apply rowwise_run_nil.
  Qed.
  Lemma block_modules b : block h dl nm nlo b -> forall k, In k b -> exists f ps, get h k = OModule f ps.
  Proof.
    pose proof activation_rowwise as AR. intros (b1 & -> & Hb) k Hk. apply in_app_or in Hk. destruct Hk as [Hk|Hk].
    - destruct nm as [[f ps]|]; [|now subst b1]. destruct Hb as (j & -> & _ & _ & G). destruct Hk as [<-|[]]. eauto.
    - destruct nlo as [j|] eqn:Ej; [|easy]. destruct Hk as [<-|[]]. now apply AR.
  Qed.
End Between.

Lemma own_modules h L : (forall k, In k L -> exists f ps, get h k = OModule f ps) -> flat_map (own_layer h) L = [].
Proof. induction L as [|k L IH]; intros Q; [reflexivity|]. cbn [flat_map]. rewrite IH by (intros; apply Q; now right). destruct (Q k ltac:(now left)) as (f & ps & G). unfold own_layer. now rewrite G. Qed.
Lemma own_chain h dl nm nlo D c prev first T ks : (forall b, block h dl nm nlo b -> flat_map (own_layer h) (b ++ D) = []) ->
  hidden_chain h dl nm nlo D c prev first T ks -> flat_map (own_layer h) T = ks.
Proof.
  intros Q. induction 1 as [prev f | prev b0 k T ks Hb0 (l & Gk & _) C IH | prev b0 s k T ks Hb0 Hs0 Hk C IH]; [reflexivity| |];
    rewrite app_assoc, flat_map_app, Q by auto; cbn [flat_map app]; rewrite IH; unfold own_layer.
  - now rewrite Gk.
  - now rewrite Hs0.
Qed.

Section Network.
  Variables (t : string) (c : pw_class) (n d m K H si sh so : nat) (nm : option norm_class) (nlo : option nat) (p : R).
  Hypothesis Ht : t = "continuous"%string /\ c = PiecewisePolynomial \/ t = "discontinuous"%string /\ c = PiecewiseDiscontinuousPolynomial.
  Hypotheses (Hn : (1 <= n)%nat) (Hd : (1 <= d)%nat) (Hm : (1 <= m)%nat) (HH : (1 <= H)%nat) (Hsi : (1 <= si)%nat) (Hsh : (1 <= sh)%nat) (Hso : (1 <= so)%nat).
  Hypothesis Hp : 0 <= p <= 1.
  Variables (g : rng) (h0 : heap) (net : nat) (h1 h : heap) (N F : action).
  Hypothesis W0 : wf_heap h0.
  Hypothesis Ac : acts_between h0 H nm nlo N F.
  Hypothesis E : HighOrderMLP g (resnet_args t n d m K H si sh so nm nlo p) h0 = Ok (net, h1).
  Hypothesis Rt : retrained h1 h.

  Let a := resnet_args t n d m K H si sh so nm nlo p.
  (** All that the theorems need of the objects. *)
  Lemma resnet_objects : exists dl k1 k2 q T b ks li ls lo,
    wf_heap h /\ get h net = OMLP dl k1 k2 q /\ (net < length h)%nat /\ (q < length h)%nat /\ get h q = OSequential (k1 :: T ++ b ++ dropout_list a dl ++ [k2]) /\
    (dl < length h)%nat /\ get h dl = OModule (fun x => Ok x) [] /\ (forall k, nlo = Some k -> k <> dl) /\
    get h k1 = OPiecewise li /\ held li /\ pw_in li = d /\ pw_out li = H /\ get h k2 = OPiecewise lo /\ held lo /\ pw_in lo = H /\ pw_out lo = m /\
    block h dl nm nlo b /\ hidden_chain h dl nm nlo (dropout_list a dl) (pw_slot c n H H sh None) k1 true T ks /\
    Forall2 (fun k l => get h k = OPiecewise l) ks ls /\ Forall (hidden_layer H) ls /\
    Forall2 (fun k l => get h k = OPiecewise l) (resnet_layers h net) (li :: ls ++ [lo]) /\ map cfg_of (li :: ls ++ [lo]) = mlp_configs c n d m K H si sh so /\
    (forall b, block h dl nm nlo b -> rowwise H (run (call h) b) (fun v => F (N v)) /\ forall k, In k b -> exists f ps, get h k = OModule f ps) /\
    (forall k, nlo = Some k -> rowwise H (call h k) F) /\ (forall k f ps, (k < length h)%nat -> nm = Some (f, ps) -> get h k = OModule f ps -> rowwise H (call h k) N).
  Proof.
    destruct (resnet_view t c n d m K H si sh so nm nlo p Ht Hn Hd Hm HH Hsi Hsh Hso g h0 net h1 h W0 Hp) as (dl & k1 & k2 & q & T & b & ks & Wf & G & Ln & Lq & Gq & Ld & Ld0 & Gd & (li & G1 & H1 & C1) & (lo & G2 & H2 & C2) & Bb & Lks & Ch & Old); auto.
    { intros k Ek. destruct Ac as (_ & A2). rewrite Ek in A2. apply A2. }
    destruct (chain_layers _ _ _ _ _ _ _ _ _ _ _ _ _ Ch) as (ls & Fl & Hl & M).
    assert (Le : (length h0 <= length h)%nat) by lia.
    assert (Om : forall b, block h dl nm nlo b -> flat_map (own_layer h) (b ++ dropout_list a dl) = []).
    { intros b' Bb'. apply own_modules. intros k Hk. apply in_app_or in Hk. destruct Hk as [Hk|Hk]; [eapply (block_modules h0 h dl nm nlo H N F); eauto|].
      unfold dropout_list in Hk. destruct Rlt_dec; [|easy]. destruct Hk as [<-|[]]. eauto. }
    exists dl, k1, k2, q, T, b, ks, li, ls, lo.
    assert (I1 : pw_in li = d /\ pw_out li = H) by (clear - C1; unfold cfg_of, pw_slot in C1; now injection C1).
    assert (I2 : pw_in lo = H /\ pw_out lo = m) by (clear - C2; unfold cfg_of, pw_slot in C2; now injection C2).
    do 7 (split; [assumption|]). split; [intros k Ek; destruct Ac as (_ & A2); rewrite Ek in A2; lia|].
    split; [assumption|]. split; [assumption|]. split; [tauto|]. split; [tauto|]. split; [assumption|]. split; [assumption|]. split; [tauto|]. split; [tauto|].
    do 4 (split; [assumption|]). split.
    { unfold resnet_layers, model_of. rewrite G, Gq. cbn [flat_map]. rewrite (flat_map_app _ T). rewrite (own_chain _ _ _ _ _ _ _ _ _ _ Om Ch).
      rewrite (app_assoc b), (flat_map_app _ (b ++ dropout_list a dl)), Om by auto. cbn [flat_map app]. unfold own_layer. rewrite G1, G2. cbn [app]. constructor; auto. apply Forall2_app; auto. }
    split.
    { unfold mlp_configs. cbn [map]. rewrite map_app, M, C1. cbn [map]. rewrite C2, Lks. reflexivity. }
    split; [intros b' Bb'; split; [eapply (block_rowwise h0 h dl nm nlo H N F); eauto|eapply (block_modules h0 h dl nm nlo H N F); eauto]|].
    split; [intros k Ek; eapply (activation_rowwise h0 h nm nlo H N F); eauto|].
    intros k f ps Lk En Gk. destruct Ac as (A1 & _). rewrite En in A1. now apply (rowwise_module h k f ps).
  Qed.

  Definition computes (skip : option action) : Prop :=
    exists li ls lo, Forall2 (fun k l => get h k = OPiecewise l) (resnet_layers h net) (li :: ls ++ [lo]) /\ map cfg_of (li :: ls ++ [lo]) = mlp_configs c n d m K H si sh so /\
      forall x B, shape x = [B; d] -> exists y, call h net x = Ok y /\ shape y = [B; m] /\
        forall b o, (b < B)%nat -> (o < m)%nat -> at_ y [b; o] = residual (fun v => F (N v)) skip [] ls lo (layer_out li (row x b)) o.

  Lemma resnet_computes : computes (if Rlt_dec 0 p then Some same_input else match nlo with Some _ => Some F | None => match nm with Some _ => Some N | None => None end end).
  Proof.
    destruct resnet_objects as (dl & k1 & k2 & q & T & b & ks & li & ls & lo & Wf & G & Ln & Lq & Gq & Ld & Gd & Nd & G1 & H1 & I1 & O1 & G2 & H2 & I2 & O2 & Bb & Ch & Fl & Hl & Nl & M & Rb & Ra & Rn).
    exists li, ls, lo. split; [exact Nl|]. split; [exact M|]. intros x B Hx.
    assert (Rd : rowwise H (call h dl) same_input) by (apply (rowwise_module h dl (fun x => Ok x) []); auto; split; [intros z B' Hz; exists z; auto|auto]).
    set (skip := if Rlt_dec 0 p then _ else _).
    destruct (chain_run h dl nm nlo (dropout_list a dl) (pw_slot c n H H sh None) H (fun v => F (N v)) skip lo m Wf) with (prev := k1) (first := true) (T := T) (ks := ks) (ls := ls) (earlier := @nil piecewise) (b := b) (k2 := k2)
      as (R & Lc); auto; try tauto.
    { intros b' Bb'. apply (rowwise_ext H _ (fun v => same_input (F (N v)))); [reflexivity|]. apply rowwise_run_app; [now apply Rb|].
      unfold dropout_list. destruct Rlt_dec; [now apply rowwise_one|apply rowwise_run_nil]. }
    { intros b' prev Bb'. unfold skip, dropout_list. change (ma_dropout a) with p. destruct Rlt_dec as [Pp|Pp].
      - rewrite (app_comm_cons b' [dl] prev), last_last. exact Rd.
      - rewrite app_nil_r. destruct Bb' as (b1 & -> & Hb1). destruct nlo as [k|]; cbn [olist].
        + rewrite (app_comm_cons b1 [k] prev), last_last. now apply Ra.
        + rewrite app_nil_r. destruct nm as [[f ps]|].
          * destruct Hb1 as (k & -> & Lk & _ & Gk). cbn [last]. now apply (Rn k f ps).
          * exact Hb1. }
    destruct (forward_rows li x B H1 ltac:(congruence)) as (y1 & Ey1 & S1 & V1). rewrite O1 in S1. destruct (R y1 B S1) as (y & Ey & Sy & Vy). exists y.
    split; [|split; auto].
    - rewrite call_unfold, G by auto. cbn [obj_forward]. rewrite call_unfold, Gq by auto. cbn [obj_forward run]. rewrite call_unfold, G1 by (auto; now apply (get_pw_lt _ _ _ G1)). cbn [obj_forward]. rewrite Ey1. exact Ey.
    - intros r o Hr Ho. rewrite Vy by auto. apply Lc; auto. intros i Hi. unfold row at 1. apply V1; auto. lia.
  Qed.
End Network.

(** ** In training *)
Lemma train_modules h dl p keep b L x : (forall k, In k b -> k <> dl /\ exists f ps, get h k = OModule f ps) ->
  train_run h dl p keep (b ++ L) x = (y <- run (call h) b x ;; train_run h dl p keep L y).
Proof.
  revert x. induction b as [|k b IH]; intros x Q; [reflexivity|]. destruct (Q k ltac:(now left)) as (Nk & f & ps & G). cbn [app train_run run].
  destruct (Nat.eqb_spec k dl) as [|_]; [easy|]. rewrite G. destruct (call h k x); cbn [rbind]; auto. apply IH. intros j Hj. apply Q. now right.
Qed.

Section Train.
  Variables (h : heap) (dl : nat) (nm : option norm_class) (nlo : option nat) (c : cfg) (H : nat) (A : action) (lo : piecewise) (m : nat) (p : R).
  Hypothesis Wf : wf_heap h.
  Hypothesis Hp : p < 1.
  Hypothesis Gd : exists f ps, get h dl = OModule f ps.
  Hypothesis Hb : forall b, block h dl nm nlo b -> rowwise H (run (call h) b) A /\ forall k, In k b -> k <> dl /\ exists f ps, get h k = OModule f ps.

  Lemma pw_not_drop k l : get h k = OPiecewise l -> Nat.eqb k dl = false.
  Proof. intros G. destruct (Nat.eqb_spec k dl) as [->|]; auto. destruct Gd as (f & ps & Q). rewrite Q in G. discriminate. Qed.

  Lemma drop_rows keep x B : shape x = [B; H] -> shape (dropout_train p keep x) = [B; H] /\
    forall b i, at_ (dropout_train p keep x) [b; i] = drop p (fun i => keep [b; i]) (row x b) i.
  Proof. intros Hx. split; [exact Hx|]. intros b i. now apply drop_train_rows. Qed.

  Lemma chain_train prev first T ks : hidden_chain h dl nm nlo [dl] c prev first T ks ->
    forall ls, Forall2 (fun k l => get h k = OPiecewise l) ks ls -> Forall (hidden_layer H) ls ->
    forall b k2, block h dl nm nlo b -> get h k2 = OPiecewise lo -> held lo -> pw_in lo = H -> pw_out lo = m ->
    (forall keep x B, shape x = [B; H] -> exists y, train_run h dl p keep (T ++ b ++ [dl] ++ [k2]) x = Ok y /\ shape y = [B; m] /\
      forall r o, (r < B)%nat -> (o < m)%nat -> at_ y [r; o] = residual_dropped p A (fun j i => keep j [r; i]) first ls lo (row x r) o) /\
    (forall keep v v', (forall i, (i < H)%nat -> v i = v' i) -> forall o, (o < m)%nat -> residual_dropped p A keep first ls lo v o = residual_dropped p A keep first ls lo v' o).
  Proof.
    induction 1 as [prev f | prev b0 k T ks Hb0 Hk C IH | prev b0 s k T ks Hb0 Hs0 Hk C IH]; intros ls F Hl b k2 Bb G2 Hlo; inversion F as [|? l ? ls' Gk F']; subst; intros Ei Eo.
    - cbn [app residual_dropped]. destruct (Hb b Bb) as ((R & Lc) & Mb). split.
      + intros keep x B Hx. destruct (R x B Hx) as (y & Ey & Sy & Vy). rewrite <- Eo. rewrite train_modules, Ey by auto. cbn [rbind train_run]. rewrite Nat.eqb_refl.
        destruct (drop_rows (keep O) y B Sy) as (S1 & V1). rewrite (pw_not_drop k2 lo G2), G2, call_unfold, G2 by (auto; now apply (get_pw_lt _ _ _ G2)). cbn [obj_forward].
        destruct (forward_rows lo (dropout_train p (keep O) y) B Hlo ltac:(congruence)) as (z & Ez & Sz & Vz). exists z. rewrite Ez. split; [reflexivity|]. split; auto.
        intros r o Hr Ho. rewrite Vz by auto. apply layer_out_local; auto. intros i Hi. unfold row at 1. rewrite V1. unfold drop. unfold row at 1. rewrite Vy by (auto; lia). reflexivity.
      + intros keep v v' E o Ho. apply layer_out_local; auto; [lia|]. intros i Hi. unfold drop. rewrite (Lc v v') by (auto; lia). reflexivity.
    - pose proof (Forall_inv Hl) as (Hh & I1 & O1). destruct (IH ls' F' (Forall_inv_tail Hl) b k2) as (R & Lc); auto. destruct (Hb b0 Hb0) as ((R0 & L0) & Mb).
      destruct (rowwise_layer h k l H Wf Gk Hh I1 O1) as (Rk & Lk). cbn [residual_dropped]. split.
      + intros keep x B Hx. destruct (R0 x B Hx) as (y & Ey & Sy & Vy). rewrite <- (app_assoc b0). rewrite train_modules, Ey by auto. cbn [rbind app train_run]. rewrite Nat.eqb_refl.
        destruct (drop_rows (keep O) y B Sy) as (S1 & V1). rewrite (pw_not_drop k l Gk), Gk. destruct (Rk _ B S1) as (z & Ez & Sz & Vz). rewrite Ez. cbn [rbind].
        destruct (R (fun j => keep (S j)) z B Sz) as (w & Ew & Sw & Vw). exists w. split; [exact Ew|]. split; auto. intros r o Hr Ho. rewrite Vw by auto. apply Lc; auto.
        intros i Hi. unfold row at 1. rewrite Vz by auto. apply Lk; auto. intros j Hj. unfold row at 1. rewrite V1. unfold drop. unfold row at 1. rewrite Vy by auto. reflexivity.
      + intros keep v v' E o Ho. apply Lc; auto. apply Lk. intros i Hi. unfold drop. rewrite (L0 v v') by auto. reflexivity.
    - pose proof (Forall_inv Hl) as (Hh & I1 & O1). destruct (IH ls' F' (Forall_inv_tail Hl) b k2) as (R & Lc); auto. destruct (Hb b0 Hb0) as ((R0 & L0) & Mb).
      destruct (rowwise_layer h k l H Wf Gk Hh I1 O1) as (Rk & Lk). cbn [residual_dropped]. rewrite (app_comm_cons b0 [dl] prev), last_last in Hs0.
      assert (Ns : Nat.eqb s dl = false) by (destruct (Nat.eqb_spec s dl) as [->|]; auto; destruct Gd as (f & ps & Q); rewrite Q in Hs0; discriminate). split.
      + intros keep x B Hx. destruct (R0 x B Hx) as (y & Ey & Sy & Vy). rewrite <- (app_assoc b0). rewrite train_modules, Ey by auto. cbn [rbind app train_run]. rewrite Nat.eqb_refl.
        destruct (drop_rows (keep O) y B Sy) as (S1 & V1). rewrite Ns, Hs0. cbn [train_outputs]. rewrite (pw_not_drop k l Gk), Nat.eqb_refl. set (u := dropout_train p (keep O) y) in *.
        destruct (Rk _ B S1) as (z & Ez & Sz & Vz). rewrite Ez. cbn [rbind].
        destruct (drop_rows (keep 1%nat) u B S1) as (S2 & V2). destruct (sum_rows z (dropout_train p (keep 1%nat) u) B H Sz S2) as (w & Ew & Sw & Vw). rewrite Ew. cbn [rbind].
        cbn [count_occ]. destruct (Nat.eq_dec k dl) as [->|_]; [pose proof (pw_not_drop dl l Gk) as Q; rewrite Nat.eqb_refl in Q; discriminate|].
        destruct (Nat.eq_dec dl dl) as [_|Q]; [|easy]. cbn [Nat.add].
        destruct (R (fun j => keep (S (S j))) w B Sw) as (q & Eq & Sq & Vq). exists q. split; [exact Eq|]. split; auto. intros r o Hr Ho. rewrite Vq by auto. apply Lc; auto.
        assert (U : forall i, (i < H)%nat -> row u r i = drop p (fun i => keep O [r; i]) (A (row x r)) i).
        { intros i Hi. unfold row at 1. rewrite V1. unfold drop. unfold row at 1. rewrite Vy by auto. reflexivity. }
        intros i Hi. unfold row at 1. rewrite Vw, Vz, V2 by auto. f_equal; [apply Lk; auto|]. unfold drop at 1 3. rewrite U by auto. reflexivity.
      + intros keep v v' E o Ho. apply Lc; auto. intros i Hi. assert (U : forall i, (i < H)%nat -> drop p (keep O) (A v) i = drop p (keep O) (A v') i) by (intros j Hj; unfold drop; rewrite (L0 v v') by auto; reflexivity).
        rewrite (Lk _ _ U i Hi). f_equal. unfold drop at 1 3. rewrite U by auto. reflexivity.
  Qed.
End Train.
(** ** C112: evaluation
    Without modules in between, each hidden layer from the second on adds the outputs of all earlier hidden layers on its own input: the
    layer before is applied again to its output, not added. *)
Theorem C112_plain : forall g t c n d m K H si sh so h0 net h1 h, wf_heap h0 ->
  (t = "continuous"%string /\ c = PiecewisePolynomial \/ t = "discontinuous"%string /\ c = PiecewiseDiscontinuousPolynomial) ->
  (1 <= n)%nat -> (1 <= d)%nat -> (1 <= m)%nat -> (1 <= H)%nat -> (1 <= si)%nat -> (1 <= sh)%nat -> (1 <= so)%nat ->
  HighOrderMLP g (resnet_args t n d m K H si sh so None None 0) h0 = Ok (net, h1) -> retrained h1 h ->
  exists li ls lo, Forall2 (fun k l => get h k = OPiecewise l) (resnet_layers h net) (li :: ls ++ [lo]) /\ map cfg_of (li :: ls ++ [lo]) = mlp_configs c n d m K H si sh so /\
    forall x B, shape x = [B; d] -> exists y, call h net x = Ok y /\ shape y = [B; m] /\
      forall b o, (b < B)%nat -> (o < m)%nat -> at_ y [b; o] = residual same_input None [] ls lo (layer_out li (row x b)) o.
Proof.
  intros g t c n d m K H si sh so h0 net h1 h Wf Ht Hn Hd Hm HH Hsi Hsh Hso E Rt.
  pose proof (resnet_computes t c n d m K H si sh so None None 0 Ht Hn Hd Hm HH Hsi Hsh Hso ltac:(lra) g h0 net h1 h same_input same_input Wf ltac:(split; reflexivity) E Rt) as Q.
  unfold computes in Q. destruct Rlt_dec; [lra|]. exact Q.
Qed.
Print Assumptions C112_plain.

(** With an activation, or else a normalisation, that module is applied to the input of the layer, which it has just produced, and the
    result is added. *)
Theorem C112_activation : forall g t c n d m K H si sh so nm k N F h0 net h1 h, wf_heap h0 ->
  (t = "continuous"%string /\ c = PiecewisePolynomial \/ t = "discontinuous"%string /\ c = PiecewiseDiscontinuousPolynomial) ->
  (1 <= n)%nat -> (1 <= d)%nat -> (1 <= m)%nat -> (1 <= H)%nat -> (1 <= si)%nat -> (1 <= sh)%nat -> (1 <= so)%nat -> acts_between h0 H nm (Some k) N F ->
  HighOrderMLP g (resnet_args t n d m K H si sh so nm (Some k) 0) h0 = Ok (net, h1) -> retrained h1 h ->
  exists li ls lo, Forall2 (fun k l => get h k = OPiecewise l) (resnet_layers h net) (li :: ls ++ [lo]) /\ map cfg_of (li :: ls ++ [lo]) = mlp_configs c n d m K H si sh so /\
    forall x B, shape x = [B; d] -> exists y, call h net x = Ok y /\ shape y = [B; m] /\
      forall b o, (b < B)%nat -> (o < m)%nat -> at_ y [b; o] = residual (fun v => F (N v)) (Some F) [] ls lo (layer_out li (row x b)) o.
Proof.
  intros g t c n d m K H si sh so nm k N F h0 net h1 h Wf Ht Hn Hd Hm HH Hsi Hsh Hso Ac E Rt.
  pose proof (resnet_computes t c n d m K H si sh so nm (Some k) 0 Ht Hn Hd Hm HH Hsi Hsh Hso ltac:(lra) g h0 net h1 h N F Wf Ac E Rt) as Q.
  unfold computes in Q. destruct Rlt_dec; [lra|]. exact Q.
Qed.
Print Assumptions C112_activation.
Theorem C112_normalization : forall g t c n d m K H si sh so f ps N h0 net h1 h, wf_heap h0 ->
  (t = "continuous"%string /\ c = PiecewisePolynomial \/ t = "discontinuous"%string /\ c = PiecewiseDiscontinuousPolynomial) ->
  (1 <= n)%nat -> (1 <= d)%nat -> (1 <= m)%nat -> (1 <= H)%nat -> (1 <= si)%nat -> (1 <= sh)%nat -> (1 <= so)%nat -> rowwise H f N ->
  HighOrderMLP g (resnet_args t n d m K H si sh so (Some (f, ps)) None 0) h0 = Ok (net, h1) -> retrained h1 h ->
  exists li ls lo, Forall2 (fun k l => get h k = OPiecewise l) (resnet_layers h net) (li :: ls ++ [lo]) /\ map cfg_of (li :: ls ++ [lo]) = mlp_configs c n d m K H si sh so /\
    forall x B, shape x = [B; d] -> exists y, call h net x = Ok y /\ shape y = [B; m] /\
      forall b o, (b < B)%nat -> (o < m)%nat -> at_ y [b; o] = residual N (Some N) [] ls lo (layer_out li (row x b)) o.
Proof.
  intros g t c n d m K H si sh so f ps N h0 net h1 h Wf Ht Hn Hd Hm HH Hsi Hsh Hso Ac E Rt.
  pose proof (resnet_computes t c n d m K H si sh so (Some (f, ps)) None 0 Ht Hn Hd Hm HH Hsi Hsh Hso ltac:(lra) g h0 net h1 h N same_input Wf ltac:(split; [exact Ac|reflexivity]) E Rt) as Q.
  unfold computes in Q. destruct Rlt_dec; [lra|]. exact Q.
Qed.
Print Assumptions C112_normalization.

(** With dropout, in evaluation, the input of each hidden layer from the second on is added to its output. *)
Theorem C112_dropout_evaluation : forall g t c n d m K H si sh so nm nlo N F p h0 net h1 h, wf_heap h0 ->
  (t = "continuous"%string /\ c = PiecewisePolynomial \/ t = "discontinuous"%string /\ c = PiecewiseDiscontinuousPolynomial) ->
  (1 <= n)%nat -> (1 <= d)%nat -> (1 <= m)%nat -> (1 <= H)%nat -> (1 <= si)%nat -> (1 <= sh)%nat -> (1 <= so)%nat -> acts_between h0 H nm nlo N F -> 0 < p <= 1 ->
  HighOrderMLP g (resnet_args t n d m K H si sh so nm nlo p) h0 = Ok (net, h1) -> retrained h1 h ->
  exists li ls lo, Forall2 (fun k l => get h k = OPiecewise l) (resnet_layers h net) (li :: ls ++ [lo]) /\ map cfg_of (li :: ls ++ [lo]) = mlp_configs c n d m K H si sh so /\
    forall x B, shape x = [B; d] -> exists y, call h net x = Ok y /\ shape y = [B; m] /\
      forall b o, (b < B)%nat -> (o < m)%nat -> at_ y [b; o] = residual (fun v => F (N v)) (Some same_input) [] ls lo (layer_out li (row x b)) o.
Proof.
  intros g t c n d m K H si sh so nm nlo N F p h0 net h1 h Wf Ht Hn Hd Hm HH Hsi Hsh Hso Ac Hp E Rt.
  pose proof (resnet_computes t c n d m K H si sh so nm nlo p Ht Hn Hd Hm HH Hsi Hsh Hso ltac:(lra) g h0 net h1 h N F Wf Ac E Rt) as Q.
  unfold computes in Q. destruct Rlt_dec; [|lra]. exact Q.
Qed.
Print Assumptions C112_dropout_evaluation.

Lemma residual_skip A s s' H lo m : (forall v v', (forall i, (i < H)%nat -> v i = v' i) -> forall i, (i < H)%nat -> A v i = A v' i) ->
  (forall u u', (forall i, (i < H)%nat -> u i = u' i) -> forall i, (i < H)%nat -> s (A u) i = s' (A u') i) -> held lo -> pw_in lo = H -> pw_out lo = m ->
  forall ls, Forall (hidden_layer H) ls -> forall earlier v v' o, (forall i, (i < H)%nat -> v i = v' i) -> (o < m)%nat ->
  residual A (Some s) earlier ls lo v o = residual A (Some s') earlier ls lo v' o.
Proof.
  intros La Ls Hlo Ei Eo. induction ls as [|l ls IH]; intros Hl earlier v v' o Ev Ho; cbn [residual].
  - apply layer_out_local; auto; [lia|]. rewrite Ei. now apply La.
  - pose proof (Forall_inv Hl) as (Hh & I1 & O1). assert (Q : forall i, (i < H)%nat -> layer_out l (A v) i = layer_out l (A v') i).
    { intros i Hi. apply layer_out_local; auto; [lia|]. rewrite I1. now apply La. }
    apply IH; [now apply Forall_inv_tail in Hl| |auto]. intros i Hi. destruct earlier; [auto|]. now rewrite Q, (Ls v v').
Qed.

(** If applying the activation twice is applying it once (ReLU), that is what happens with an activation too. *)
Theorem C112_idempotent_activation : forall g t c n d m K H si sh so nm k N F h0 net h1 h, wf_heap h0 ->
  (t = "continuous"%string /\ c = PiecewisePolynomial \/ t = "discontinuous"%string /\ c = PiecewiseDiscontinuousPolynomial) ->
  (1 <= n)%nat -> (1 <= d)%nat -> (1 <= m)%nat -> (1 <= H)%nat -> (1 <= si)%nat -> (1 <= sh)%nat -> (1 <= so)%nat -> acts_between h0 H nm (Some k) N F ->
  (forall v i, (i < H)%nat -> F (F v) i = F v i) ->
  HighOrderMLP g (resnet_args t n d m K H si sh so nm (Some k) 0) h0 = Ok (net, h1) -> retrained h1 h ->
  exists li ls lo, Forall2 (fun k l => get h k = OPiecewise l) (resnet_layers h net) (li :: ls ++ [lo]) /\ map cfg_of (li :: ls ++ [lo]) = mlp_configs c n d m K H si sh so /\
    forall x B, shape x = [B; d] -> exists y, call h net x = Ok y /\ shape y = [B; m] /\
      forall b o, (b < B)%nat -> (o < m)%nat -> at_ y [b; o] = residual (fun v => F (N v)) (Some same_input) [] ls lo (layer_out li (row x b)) o.
Proof.
  intros g t c n d m K H si sh so nm k N F h0 net h1 h Wf Ht Hn Hd Hm HH Hsi Hsh Hso Ac Id E Rt.
  destruct (resnet_objects t c n d m K H si sh so nm (Some k) 0 Ht Hn Hd Hm HH Hsi Hsh Hso ltac:(lra) g h0 net h1 h N F Wf Ac E Rt)
    as (dl & k1 & k2 & q & T & b & ks & li & ls & lo & _ & _ & _ & _ & _ & _ & _ & _ & _ & Hi & Ii & Oi & _ & Ho & Io & Oo & Bb & _ & _ & Hl & Nl & M & Rb & Ra & _).
  destruct (C112_activation g t c n d m K H si sh so nm k N F h0 net h1 h Wf Ht Hn Hd Hm HH Hsi Hsh Hso Ac E Rt) as (li' & ls' & lo' & Nl' & M' & Q).
  assert (Eq : li' :: ls' ++ [lo'] = li :: ls ++ [lo]).
  { clear - Nl Nl'. revert Nl Nl'. generalize (li :: ls ++ [lo]) (li' :: ls' ++ [lo']). generalize (resnet_layers h net). induction l as [|j L IH]; intros l1 l2 F1 F2; inversion F1; inversion F2; subst; auto. f_equal; [congruence|]. now apply IH. }
  injection Eq as -> Eq. apply app_inj_tail in Eq. destruct Eq as (-> & ->).
  exists li, ls, lo. split; [exact Nl|]. split; [exact M|]. intros x B Hx. destruct (Q x B Hx) as (y & Ey & Sy & Vy). exists y. split; auto. split; auto. intros r o Hr Ho'. rewrite Vy by auto.
  destruct (Rb b Bb) as ((_ & La) & _).
  apply (residual_skip _ _ _ H lo m); auto. intros u u' Eu i Hi'. rewrite Id by auto. now apply La.
Qed.
Print Assumptions C112_idempotent_activation.

(** ** Training
    The dropout module acts before each layer and once more on what is added, with decisions of its own. *)
Theorem C112_training : forall g t c n d m K H si sh so nm nlo N F p h0 net h1 h, wf_heap h0 ->
  (t = "continuous"%string /\ c = PiecewisePolynomial \/ t = "discontinuous"%string /\ c = PiecewiseDiscontinuousPolynomial) ->
  (1 <= n)%nat -> (1 <= d)%nat -> (1 <= m)%nat -> (1 <= H)%nat -> (1 <= si)%nat -> (1 <= sh)%nat -> (1 <= so)%nat -> acts_between h0 H nm nlo N F -> 0 < p < 1 ->
  HighOrderMLP g (resnet_args t n d m K H si sh so nm nlo p) h0 = Ok (net, h1) -> retrained h1 h ->
  exists li ls lo, Forall2 (fun k l => get h k = OPiecewise l) (resnet_layers h net) (li :: ls ++ [lo]) /\ map cfg_of (li :: ls ++ [lo]) = mlp_configs c n d m K H si sh so /\
    forall keep x B, shape x = [B; d] -> exists y, train_forward h net p keep x = Ok y /\ shape y = [B; m] /\
      forall b o, (b < B)%nat -> (o < m)%nat -> at_ y [b; o] = residual_dropped p (fun v => F (N v)) (fun j i => keep j [b; i]) true ls lo (layer_out li (row x b)) o.
Proof.
  intros g t c n d m K H si sh so nm nlo N F p h0 net h1 h Wf Ht Hn Hd Hm HH Hsi Hsh Hso Ac Hp E Rt.
  destruct (resnet_objects t c n d m K H si sh so nm nlo p Ht Hn Hd Hm HH Hsi Hsh Hso ltac:(lra) g h0 net h1 h N F Wf Ac E Rt)
    as (dl & k1 & k2 & q & T & b & ks & li & ls & lo & Wh & G & Ln & Lq & Gq & Ld & Gd & Nd & G1 & H1 & I1 & O1 & G2 & H2 & I2 & O2 & Bb & Ch & Fl & Hl & Nl & M & Rb & Ra & Rn).
  exists li, ls, lo. split; [exact Nl|]. split; [exact M|]. intros keep x B Hx.
  assert (Dr : dropout_list (resnet_args t n d m K H si sh so nm nlo p) dl = [dl]) by (unfold dropout_list; cbn [resnet_args ma_dropout]; destruct Rlt_dec; [reflexivity|lra]).
  rewrite Dr in Ch, Gq.
  destruct (chain_train h dl nm nlo (pw_slot c n H H sh None) H (fun v => F (N v)) lo m p Wh ltac:(lra) ltac:(eauto)) with (prev := k1) (first := true) (T := T) (ks := ks) (ls := ls) (b := b) (k2 := k2) as (R & Lc); auto.
  { intros b' Bb'. destruct (Rb b' Bb') as (R & Mb). split; auto. intros k Hk. split; [|now apply Mb]. destruct Bb' as (b1 & -> & Hb1). apply in_app_or in Hk. destruct Hk as [Hk|Hk].
    - destruct nm as [[f ps]|]; [|now subst b1]. destruct Hb1 as (j & -> & _ & Nj & _). destruct Hk as [<-|[]]. exact Nj.
    - destruct nlo as [j|]; [|easy]. destruct Hk as [<-|[]]. now apply Nd. }
  destruct (forward_rows li x B H1 ltac:(congruence)) as (y1 & Ey1 & S1 & V1). rewrite O1 in S1. destruct (R keep y1 B S1) as (y & Ey & Sy & Vy). exists y.
  split; [|split; auto].
  - unfold train_forward. rewrite G, Gq. cbn [train_run]. destruct (Nat.eqb_spec k1 dl) as [->|_]; [rewrite Gd in G1; discriminate|].
    rewrite G1, call_unfold, G1 by (auto; now apply (get_pw_lt _ _ _ G1)). cbn [obj_forward]. rewrite Ey1. exact Ey.
  - intros r o Hr Ho. rewrite Vy by auto. apply Lc; auto. intros i Hi. unfold row at 1. apply V1; auto. lia.
Qed.
Print Assumptions C112_training.

(** What is added in training: nothing unless both decisions keep it, and then divided twice; its mean is right, but it stays in
    [[-1,1]] for all decisions only if it was at most (1-p)^2 in size. *)
Theorem C112_added_in_training : forall p (u : nat -> R) i, 0 <= p < 1 ->
  (forall keep keep', drop p keep' (drop p keep u) i = if (keep i && keep' i)%bool then u i / (1 - p) ^ 2 else 0) /\
  mean p 2 (fun k => drop p (fun _ => k 1%nat) (drop p (fun _ => k O) u) i) = u i /\
  mean p 2 (fun k => if (k O && k 1%nat)%bool then 1 else 0) = (1 - p) ^ 2 /\
  ((forall keep keep', -1 <= drop p keep' (drop p keep u) i <= 1) <-> Rabs (u i) <= (1 - p) ^ 2).
Proof.
  intros p u i Hp. assert (P2 : 0 < (1 - p) ^ 2) by (apply pow_lt; lra).
  assert (D : forall keep keep', drop p keep' (drop p keep u) i = if (keep i && keep' i)%bool then u i / (1 - p) ^ 2 else 0).
  { intros keep keep'. unfold drop. destruct (keep i), (keep' i); cbn [andb]; field; lra. }
  split; [exact D|]. split; [|split].
  - unfold drop. cbn. field. lra.
  - cbn. ring.
  - split.
    + intros Q. specialize (Q (fun _ => true) (fun _ => true)). rewrite D in Q. cbn [andb] in Q. replace (u i) with ((1 - p) ^ 2 * (u i / (1 - p) ^ 2)) by (field; lra).
      rewrite Rabs_mult, (Rabs_pos_eq ((1 - p) ^ 2)) by lra. assert (Rabs (u i / (1 - p) ^ 2) <= 1) by (apply Rabs_le; lra). nra.
    + intros Q keep keep'. rewrite D. destruct (keep i && keep' i)%bool; [|lra]. assert (A : Rabs (u i / (1 - p) ^ 2) <= 1).
      { unfold Rdiv. rewrite Rabs_mult, (Rabs_pos_eq (/ (1 - p) ^ 2)) by (apply Rlt_le, Rinv_0_lt_compat; lra). apply (Rmult_le_reg_r ((1 - p) ^ 2)); [lra|]. rewrite Rmult_assoc, Rinv_l by lra. lra. }
      unfold Rabs in A. destruct Rcase_abs in A; lra.
Qed.
Print Assumptions C112_added_in_training.

(** ** Hidden layers that return zero
    A hidden layer that adds its input to its output and returns zero changes nothing.  Here all such layers apply the first hidden layer once
    more. *)
Definition returns_zero (l : piecewise) : Prop := forall v o, (o < pw_out l)%nat -> layer_out l v o = 0.
Fixpoint repeated (l : piecewise) (k : nat) (v : nat -> R) : nat -> R := match k with O => v | S k => repeated l k (layer_out l v) end.
Theorem C112_zero_layers : forall H l0 ls lo v o, Forall (hidden_layer H) (l0 :: ls) -> Forall returns_zero ls -> held lo -> pw_in lo = H -> (o < pw_out lo)%nat ->
  residual same_input None [] (l0 :: ls) lo v o = layer_out lo (repeated l0 (length (l0 :: ls)) v) o /\
  residual same_input (Some same_input) [] (l0 :: ls) lo v o = layer_out lo (layer_out l0 v) o.
Proof.
  intros H l0 ls lo v o Hl Hz Hlo Ei Ho. pose proof (Forall_inv Hl) as (Hh & I1 & O1). apply Forall_inv_tail in Hl. cbn [residual length repeated]. unfold same_input at 2 4. split.
  - generalize (layer_out l0 v). intros w. assert (Q : forall z, Forall returns_zero z -> Forall (hidden_layer H) z -> forall u i, (i < H)%nat -> sum_of (z ++ [l0]) u i = layer_out l0 u i).
    { induction z as [|l z IH]; intros Zz Hz' u i Hi; cbn [app sum_of]; [ring|]. pose proof (Forall_inv Hz') as (_ & _ & Oz). rewrite (Forall_inv Zz) by lia. rewrite IH by (auto; eapply Forall_inv_tail; eauto). ring. }
    assert (P : forall z, Forall returns_zero z -> Forall (hidden_layer H) z -> forall w w', (forall i, (i < H)%nat -> w i = w' i) -> residual same_input None (z ++ [l0]) ls lo w o = layer_out lo (repeated l0 (length ls) w') o).
    { clear v w. revert Hl Hz. induction ls as [|l ls IH]; intros Hl Hz z Z0 Z1 w w' Ew; cbn [residual length repeated].
      - apply layer_out_local; auto. rewrite Ei. exact Ew.
      - pose proof (Forall_inv Hl) as (Hhl & Il & Ol). change (l :: z ++ [l0]) with ((l :: z) ++ [l0]). apply IH.
        + now apply Forall_inv_tail in Hl.
        + now apply Forall_inv_tail in Hz.
        + constructor; auto. now apply Forall_inv in Hz.
        + constructor; auto. now apply Forall_inv in Hl.
        + intros i Hi. unfold same_input. assert (E1 : layer_out l0 w i = layer_out l0 w' i) by (apply layer_out_local; auto; [lia|]; rewrite I1; exact Ew).
          destruct (z ++ [l0]) as [|a r] eqn:Ez; [now destruct z|]. rewrite <- Ez. rewrite Q by auto. rewrite (Forall_inv Hz) by lia. rewrite E1. ring. }
    apply (P []); auto.
  - assert (P : forall e w w', e <> [] -> (forall i, (i < H)%nat -> w i = w' i) -> residual same_input (Some same_input) e ls lo w o = layer_out lo w' o).
    { revert Hl Hz. induction ls as [|l ls IH]; intros Hl Hz e w w' He Ew; cbn [residual].
      - apply layer_out_local; auto. rewrite Ei. exact Ew.
      - destruct e as [|l1 e]; [easy|]. apply IH; [now apply Forall_inv_tail in Hl|now apply Forall_inv_tail in Hz|discriminate|]. intros i Hi. unfold same_input.
        pose proof (Forall_inv Hl) as (_ & _ & Ol). rewrite (Forall_inv Hz) by lia. rewrite Ew by auto. ring. }
    apply P; [discriminate|auto].
Qed.
Print Assumptions C112_zero_layers.

(** ** Not a residual connection *)
(** A network with two hidden layers of one feature, all of whose layers have been trained to double their input. *)
Definition fresh1 (g : rng) (k : nat) : piecewise := new_piecewise PiecewisePolynomial 2 1 1 1 2 1 None (fun o i => g k [o; i]).
Definition slope : tensor R := mkT [1; 1; 2]%nat (fun ix => match ix with [_; _; O] => -2 | _ => 2 end).
Definition doubling (g : rng) (k : nat) : piecewise := with_w (fresh1 g k) slope.
Definition two_hidden (L : nat -> piecewise) : heap :=
  [OModule (fun x => Ok x) []; OPiecewise (L 1%nat); OPiecewise (L 2%nat); OPiecewise (L 3%nat); OSum [3; 2]%nat; OPiecewise (L 5%nat); OSequential [1; 2; 4; 5]%nat; OMLP 0 1 5 6].
Lemma two_hidden_built g : HighOrderMLP g (resnet_args "continuous" 2 1 1 2 1 1 1 1 None None 0) [] = Ok (7%nat, two_hidden (fresh1 g)).
Proof.
  unfold HighOrderMLP. set (a := resnet_args _ _ _ _ _ _ _ _ _ _ _ _). change (ma_hidden_layers a) with 2%nat. cbn [mlp_hidden]. unfold dropout_list. change (ma_dropout a) with 0.
  destruct (Rlt_dec 0 0) as [C|_]; [exfalso; lra|]. destruct (Rlt_dec 1 0) as [C|_]; [exfalso; lra|]. reflexivity.
Qed.
Lemma two_hidden_retrained g : retrained (two_hidden (fresh1 g)) (two_hidden (doubling g)).
Proof. split; [reflexivity|]. intros i Hi. do 8 (destruct i as [|i]; [try apply RwSame; now apply RwPiecewise|]). cbn in Hi. lia. Qed.
Lemma doubling_out g k u : layer_out (doubling g k) u 0 = 2 * u 0%nat.
Proof.
  assert (Hd : held (doubling g k)) by (apply with_w_held; [apply new_held; lia|reflexivity]).
  rewrite layer_out_sum by (auto; cbn; auto; now left). cbn [doubling with_w fresh1 new_piecewise pw_in rsum]. rewrite Rplus_0_l. unfold link. cbn [doubling with_w fresh1 new_piecewise pw_periodicity apply_periodicity].
  fold (fresh1 g k). fold (doubling g k). destruct (link_interp (doubling g k) 0 0 (u 0%nat) Hd eq_refl) as (s & Hin & ->). assert (s = 0%nat) by (destruct Hin as (? & _); cbn in *; lia). subst s.
  cbn [doubling with_w fresh1 new_piecewise pw_segments pw_n]. replace (seg_local 1 0 (u 0%nat)) with (u 0%nat) by (unfold seg_local, knot; simpl; field).
  rewrite interp_two, !weight_pos_eq. cbn [doubling with_w pw_w slope at_ Nat.mul Nat.add]. field.
Qed.
Lemma two_hidden_layers (L : nat -> piecewise) li ls lo : Forall2 (fun k l => get (two_hidden L) k = OPiecewise l) (resnet_layers (two_hidden L) 7) (li :: ls ++ [lo]) ->
  li = L 1%nat /\ ls = [L 2%nat; L 3%nat] /\ lo = L 5%nat.
Proof.
  intros F. change (resnet_layers (two_hidden L) 7) with [1; 2; 3; 5]%nat in F. inversion F as [|? ? ? ? G1 F1]; subst. clear F. cbn in G1. injection G1 as <-.
  destruct ls as [|l1 [|l2 [|l3 ls]]]; cbn [app] in F1.
  - apply Forall2_len in F1. discriminate.
  - apply Forall2_len in F1. discriminate.
  - inversion F1 as [|? ? ? ? G2 F2]; subst. inversion F2 as [|? ? ? ? G3 F3]; subst. inversion F3 as [|? ? ? ? G5 F5]; subst. cbn in G2, G3, G5. injection G2 as <-. injection G3 as <-. injection G5 as <-. auto.
  - apply Forall2_len in F1. cbn in F1. rewrite app_length in F1. cbn in F1. lia.
Qed.
Lemma doubled_not_residual (L : nat -> piecewise) w : (forall k u, layer_out (L k) u 0 = 2 * u 0%nat) -> w 0%nat = 1 ->
  residual same_input None [] [L 2%nat; L 3%nat] (L 5%nat) (layer_out (L 1%nat) w) 0 <> residual same_input (Some same_input) [] [L 2%nat; L 3%nat] (L 5%nat) (layer_out (L 1%nat) w) 0.
Proof. intros D Hw Q. cbn [residual sum_of] in Q. unfold same_input in Q. rewrite !D in Q. rewrite Hw in Q. lra. Qed.
Theorem C112_adds_previous_result_refuted : ~ (forall g t c n d m K H si sh so h0 net h1 h, wf_heap h0 ->
  (t = "continuous"%string /\ c = PiecewisePolynomial \/ t = "discontinuous"%string /\ c = PiecewiseDiscontinuousPolynomial) ->
  (1 <= n)%nat -> (1 <= d)%nat -> (1 <= m)%nat -> (1 <= H)%nat -> (1 <= si)%nat -> (1 <= sh)%nat -> (1 <= so)%nat ->
  HighOrderMLP g (resnet_args t n d m K H si sh so None None 0) h0 = Ok (net, h1) -> retrained h1 h ->
  exists li ls lo, Forall2 (fun k l => get h k = OPiecewise l) (resnet_layers h net) (li :: ls ++ [lo]) /\
    forall x B, shape x = [B; d] -> exists y, call h net x = Ok y /\ shape y = [B; m] /\
      forall b o, (b < B)%nat -> (o < m)%nat -> at_ y [b; o] = residual same_input (Some same_input) [] ls lo (layer_out li (row x b)) o).
Proof.
  intros A. set (g := fun (_ : nat) (_ : index) => 0). set (h := two_hidden (doubling g)).
  pose proof (two_hidden_layers (doubling g)) as Ly. fold h in Ly.
  pose proof (C112_plain g "continuous" PiecewisePolynomial 2 1 1 2 1 1 1 1 [] 7 _ h wf_nil ltac:(now left) ltac:(lia) ltac:(lia) ltac:(lia) ltac:(lia) ltac:(lia) ltac:(lia) ltac:(lia) (two_hidden_built g) (two_hidden_retrained g)) as (li & ls & lo & F & _ & Q).
  pose proof (A g "continuous"%string PiecewisePolynomial 2%nat 1%nat 1%nat 2%nat 1%nat 1%nat 1%nat 1%nat [] 7%nat _ h wf_nil ltac:(now left) ltac:(lia) ltac:(lia) ltac:(lia) ltac:(lia) ltac:(lia) ltac:(lia) ltac:(lia) (two_hidden_built g) (two_hidden_retrained g)) as (li' & ls' & lo' & F' & Q').
  destruct (Ly _ _ _ F) as (-> & -> & ->). destruct (Ly _ _ _ F') as (-> & -> & ->).
  set (x := mkT [1; 1]%nat (fun _ => 1)). destruct (Q x 1%nat eq_refl) as (y & Ey & _ & V). destruct (Q' x 1%nat eq_refl) as (y' & Ey' & _ & V').
  rewrite Ey in Ey'. apply Ok_inj in Ey'. subst y'. specialize (V 0%nat 0%nat ltac:(lia) ltac:(lia)). specialize (V' 0%nat 0%nat ltac:(lia) ltac:(lia)). rewrite V' in V. clear V'.
  exact (doubled_not_residual (doubling g) (row x 0) (doubling_out g) eq_refl (eq_sym V)).
Qed.
Print Assumptions C112_adds_previous_result_refuted.

(** Hypotheses that can be met: a network with two hidden layers, ReLU in between and dropout. *)
Definition relu_row : action := fun v i => if Rle_dec 0 (v i) then v i else 0.
Definition relu_module (x : tensor R) : res (tensor R) := Ok (mkT (shape x) (fun ix => if Rle_dec 0 (at_ x ix) then at_ x ix else 0)).
Lemma relu_rowwise W : rowwise W relu_module relu_row.
Proof.
  split.
  - intros x B Hx. eexists. split; [reflexivity|]. split; [exact Hx|]. reflexivity.
  - intros v v' Ev i Hi. unfold relu_row. now rewrite Ev.
Qed.
Example C112_case : exists net h1 y, HighOrderMLP (fun _ _ => 0) (resnet_args "continuous" 2 1 1 2 1 1 1 1 None (Some O) (1/2)) [OModule relu_module []] = Ok (net, h1) /\
  acts_between [OModule relu_module []] 1 None (Some O) same_input relu_row /\ (forall v i, (i < 1)%nat -> relu_row (relu_row v) i = relu_row v i) /\
  train_forward h1 net (1/2) (fun _ _ => true) (mkT [1; 1]%nat (fun _ => 1)) = Ok y.
Proof.
  assert (B : exists net h1, HighOrderMLP (fun _ _ => 0) (resnet_args "continuous" 2 1 1 2 1 1 1 1 None (Some O) (1/2)) [OModule relu_module []] = Ok (net, h1)).
  { unfold HighOrderMLP. set (a := resnet_args _ _ _ _ _ _ _ _ _ _ _ _). change (ma_hidden_layers a) with 2%nat. cbn [mlp_hidden]. unfold dropout_list. change (ma_dropout a) with (1/2).
    destruct (Rlt_dec (1/2) 0) as [C|_]; [exfalso; lra|]. destruct (Rlt_dec 1 (1/2)) as [C|_]; [exfalso; lra|]. destruct (Rlt_dec 0 (1/2)) as [_|C]; [|exfalso; lra]. eexists _, _. reflexivity. }
  destruct B as (net & h1 & E). assert (Ac : acts_between [OModule relu_module []] 1 None (Some O) same_input relu_row).
  { split; [reflexivity|]. split; [cbn; lia|]. exists relu_module, []. split; [reflexivity|apply relu_rowwise]. }
  assert (W0 : wf_heap [OModule relu_module []]) by (apply (wf_snoc []); [apply wf_nil|intros j []]).
  destruct (C112_training _ "continuous" PiecewisePolynomial 2 1 1 2 1 1 1 1 None (Some O) same_input relu_row (1/2) _ net h1 h1 W0 ltac:(now left) ltac:(lia) ltac:(lia) ltac:(lia) ltac:(lia) ltac:(lia) ltac:(lia) ltac:(lia) Ac ltac:(lra) E (NetCopy.retrained_refl h1)) as (li & ls & lo & _ & _ & Q).
  destruct (Q (fun _ _ => true) (mkT [1; 1]%nat (fun _ => 1)) 1%nat eq_refl) as (y & Ey & _). exists net, h1, y. split; [exact E|]. split; [exact Ac|]. split; [|exact Ey].
  intros v i _. unfold relu_row. destruct (Rle_dec 0 (v i)); destruct Rle_dec; auto; lra.
Qed.
