(** * Copying weights between networks: lemmas. *)
From Coq Require Import String Reals Lra ZArith List Lia Bool Arith.
From Verif Require Import Spec Tensor Utils LagrangePolynomial Basis PolynomialLayers Refine ProductLayer LagrangeND Layers Networks
  Observe ObserveNet TensorFacts LayerFacts SegmentFacts LayerProofs RefineFacts HeapFacts NetFacts.
Import ListNotations.
Local Open Scope R_scope.
Local Open Scope nat_scope.

(** ** Functions on batches that agree *)
Definition rel (B W : nat) (r r' : res (tensor R)) : Prop :=
  match r, r' with
  | Ok y, Ok y' => teq y y' /\ shape y = [B; W]
  | Err e, Err e' => e = e'
  | _, _ => False
  end.
Definition sim (W W' : nat) (f f' : tensor R -> res (tensor R)) : Prop :=
  forall B x x', teq x x' -> shape x = [B; W] -> rel B W' (f x) (f' x').

Lemma sim_module f W : shape_preserving f -> sim W W f f.
Proof.
  intros (E & Sh) B x x' Ex Hx. specialize (E x x' Ex). unfold same_result in E. unfold rel.
  destruct (f x) as [y|e] eqn:Ey, (f x') as [y'|e']; auto. split; auto. now rewrite (Sh x y Ey).
Qed.

Lemma forward_teq l x x' B : held l -> teq x x' -> shape x = [B; pw_in l] ->
  exists y y', Piecewise_forward l x = Ok y /\ Piecewise_forward l x' = Ok y' /\ teq y y' /\ shape y = [B; pw_out l].
Proof.
  intros H (Es & Ea) Hx. assert (Hx' : shape x' = [B; pw_in l]) by congruence.
  destruct (forward_rows l x B H Hx) as (y & E1 & S1 & V1). destruct (forward_rows l x' B H Hx') as (y' & E2 & S2 & V2).
  exists y, y'. repeat split; auto; [congruence|]. intros ix Hv. rewrite S1 in Hv. apply valid2 in Hv. destruct Hv as (b & o & -> & Hb & Ho).
  rewrite V1, V2, !layer_out_eq by auto. apply combine_ext. intros i Hi. unfold row. rewrite Ea; [reflexivity|].
  rewrite Hx. cbn. auto.
Qed.

Lemma sim_pw li lo : held li -> same_function li lo -> sim (pw_in li) (pw_out li) (Piecewise_forward li) (Piecewise_forward lo).
Proof.
  intros H F B x x' Ex Hx. destruct (forward_teq li x x' B H Ex Hx) as (y & y' & E1 & E2 & T & Sh).
  destruct (F x' B) as (z & z' & E3 & E4 & T'); [destruct Ex; congruence|].
  rewrite E1, E4. split; auto. rewrite E3 in E2. injection E2 as ->. eapply teq_trans; eauto.
Qed.

Lemma sim_ext W W' f f' g g' : (forall x, f x = g x) -> (forall x, f' x = g' x) -> sim W W' g g' -> sim W W' f f'.
Proof. intros E E' S B x x' Ex Hx. rewrite E, E'. now apply S. Qed.

(** Sequential *)
Inductive chain (c c' : nat -> tensor R -> res (tensor R)) : nat -> list nat -> list nat -> nat -> Prop :=
| ch_nil W : chain c c' W [] [] W
| ch_cons W W1 W2 k k' L L' : sim W W1 (c k) (c' k') -> chain c c' W1 L L' W2 -> chain c c' W (k :: L) (k' :: L') W2.
Lemma chain_run c c' W L L' W2 : chain c c' W L L' W2 -> sim W W2 (run c L) (run c' L').
Proof.
  induction 1 as [W|W W1 W2 k k' L L' S C IH]; intros B x x' Ex Hx; [cbn; auto|].
  cbn [run]. specialize (S B x x' Ex Hx). unfold rel in S.
  destruct (c k x) as [y|e], (c' k' x') as [y'|e']; try contradiction; cbn [rbind]; [|exact S].
  destruct S as (Ey & Hy). now apply IH.
Qed.

(** Switch *)
Lemma bc_lt d i : i < d -> bc d i < d.
Proof. unfold bc. destruct (Nat.eqb_spec d 1); lia. Qed.
Lemma bc_id d i : i < d -> bc d i = i.
Proof. unfold bc. destruct (Nat.eqb_spec d 1); lia. Qed.
Lemma times_same f y B W : shape f = [B; W] -> shape y = [B; W] ->
  exists z, times_ f y = Ok z /\ shape z = [B; W] /\ forall b o, b < B -> o < W -> at_ z [b; o] = (at_ f [b; o] * at_ y [b; o])%R.
Proof.
  intros Hf Hy. unfold times_, broadcast2.
  assert (Eb : bshape (shape f) (shape y) = Some [B; W]) by (rewrite Hf, Hy; unfold bshape; cbn; now rewrite !bsize_refl).
  rewrite Eb, Hf, Hy. clear Eb.
  destruct (list_eq_dec Nat.eq_dec [B; W] [B; W]) as [_|C]; [|contradiction].
  eexists. split; [reflexivity|]. split; [reflexivity|]. intros b o Hb Ho. cbn. unfold bindex. cbn. now rewrite !bc_id.
Qed.
Definition rels (B W : nat) (r r' : res (list (tensor R))) : Prop :=
  match r, r' with
  | Ok y, Ok y' => Forall2 (fun a b => teq a b /\ shape a = [B; W]) y y'
  | Err e, Err e' => e = e'
  | _, _ => False
  end.
Lemma times_all_rel B W ys ys' : Forall2 (fun a b => teq a b /\ shape a = [B; W]) ys ys' ->
  forall f f', teq f f' -> shape f = [B; W] -> rel B W (times_all f ys) (times_all f' ys').
Proof.
  induction 1 as [|a b ys ys' (Ea & Ha) F IH]; intros f f' Ef Hf; cbn [times_all]; [split; auto|].
  assert (Hb : shape b = [B; W]) by (destruct Ea; congruence). assert (Hf' : shape f' = [B; W]) by (destruct Ef; congruence).
  destruct (times_same f a B W Hf Ha) as (z & -> & Sz & Vz). destruct (times_same f' b B W Hf' Hb) as (z' & -> & Sz' & Vz').
  cbn [rbind]. apply IH; auto. split; [congruence|]. intros ix Hv. rewrite Sz in Hv. apply valid2 in Hv. destruct Hv as (i & o & -> & Hi & Ho).
  rewrite Vz, Vz' by auto. f_equal; [apply Ef|apply Ea]; rewrite ?Hf, ?Ha; cbn; auto.
Qed.
Lemma all_outputs_rel c c' W W' ls ls' : Forall2 (fun k k' => sim W W' (c k) (c' k')) ls ls' ->
  forall B x x', teq x x' -> shape x = [B; W] -> rels B W' (all_outputs c ls x) (all_outputs c' ls' x').
Proof.
  intros F B x x' Ex Hx. induction F as [|k k' ls ls' S F IH]; cbn [all_outputs]; [constructor|].
  specialize (S B x x' Ex Hx). unfold rel in S. destruct (c k x), (c' k' x'); try contradiction; cbn [rbind]; [|exact S].
  unfold rels in IH. destruct (all_outputs c ls x), (all_outputs c' ls' x'); try contradiction; cbn [rbind]; [|exact IH].
  constructor; auto.
Qed.
Lemma sim_switch c c' W W' I O I' O' ls ls' : Forall2 (fun k k' => sim W W' (c k) (c' k')) ls ls' ->
  sim W W' (obj_forward c (OSwitch I O ls None)) (obj_forward c' (OSwitch I' O' ls' None)).
Proof.
  intros F B x x' Ex Hx. cbn [obj_forward]. pose proof (all_outputs_rel c c' W W' ls ls' F B x x' Ex Hx) as A. unfold rels in A.
  destruct (all_outputs c ls x) as [ys|e], (all_outputs c' ls' x') as [ys'|e']; try contradiction; cbn [rbind]; [|exact A].
  destruct A as [|a b ys ys' (Ea & Ha) A]; cbn [product_outputs rbind]; [reflexivity|].
  pose proof (times_all_rel B W' ys ys' A a b Ea Ha) as T. unfold rel in T.
  destruct (times_all a ys), (times_all b ys'); try contradiction; cbn [rbind]; exact T.
Qed.

(** ** Calls depend on earlier objects only *)
Lemma call_agree h h' i x : wf_heap h -> wf_heap h' -> i < length h -> i < length h' -> (forall j, j <= i -> get h' j = get h j) ->
  call h' i x = call h i x.
Proof.
  intros W W'. revert x. induction i as [i IH] using lt_wf_ind. intros x L L' E.
  rewrite !call_unfold by auto. rewrite E by lia. 
  assert (Q : forall j y, In j (refs (get h i)) -> call h' j y = call h j y).
  { intros j y Hj. pose proof (W i L j Hj). apply IH; try lia. intros k Hk. apply E. lia. }
  clear -Q. destruct (get h i) eqn:Eo; cbn [obj_forward refs] in *; try reflexivity.
  - rewrite Q by now left. reflexivity.
  - replace (all_outputs (call h') layer_list x) with (all_outputs (call h) layer_list x); [reflexivity|].
    clear Eo. induction layer_list as [|f l IH]; [reflexivity|]. cbn. rewrite (Q f) by now left.
    destruct (call h f x); cbn; [|reflexivity]. rewrite IH; [reflexivity|]. intros j y Hj. apply Q. now right.
  - assert (Ql : forall j y, In j layers -> call h' j y = call h j y) by (intros; apply Q, in_or_app; now left).
    assert (Qn : forall y, match normalization with Some f => call h' f y | None => Ok y end = match normalization with Some f => call h f y | None => Ok y end).
    { intros y. destruct normalization; [|reflexivity]. apply Q, in_or_app. right. now left. }
    replace (all_outputs (call h') layers x) with (all_outputs (call h) layers x).
    { destruct (all_outputs (call h) layers x); cbn; [|reflexivity]. destruct (product_outputs a); cbn; [|reflexivity]. apply Qn. }
    clear Eo Q Qn. induction layers as [|f l IH]; [reflexivity|]. cbn. rewrite (Ql f) by now left.
    destruct (call h f x); cbn; [|reflexivity]. rewrite IH; [reflexivity|]. intros j y Hj. apply Ql. now right.
  - clear Eo. revert x. induction children as [|f l IH]; intros x; [reflexivity|]. cbn. rewrite (Q f) by now left.
    destruct (call h f x); cbn; [|reflexivity]. apply IH. intros j y Hj. apply Q. now right.
  - rewrite Q by (cbn; auto). reflexivity.
  - rewrite Q by now left. reflexivity.
Qed.

(** ** First occurrences in parallel lists *)
Lemma firsts_parallel L1 : forall L2 M1 M2, length L1 = length L2 -> length M1 = length M2 ->
  (forall p q, In p (combine M1 M2 ++ combine L1 L2) -> In q (combine M1 M2 ++ combine L1 L2) -> (fst p = fst q <-> snd p = snd q)) ->
  exists N, firsts M1 L1 = M1 ++ map fst N /\ firsts M2 L2 = M2 ++ map snd N /\ incl N (combine L1 L2) /\
    (forall p, In p (combine L1 L2) -> In p N \/ In p (combine M1 M2)) /\
    NoDup (map fst N) /\ NoDup (map snd N) /\ (forall p, In p N -> ~ In (fst p) M1 /\ ~ In (snd p) M2).
Proof.
  induction L1 as [|a L1 IH]; intros [|b L2] M1 M2 EL EM H; try discriminate.
  { exists []. cbn. rewrite !app_nil_r. repeat split; auto; try constructor; intros p []. }
  injection EL as EL. cbn [firsts combine].
  assert (Mem : mem a M1 = true <-> In (a, b) (combine M1 M2)).
  { rewrite mem_In. split; [|apply in_combine_l]. intros Ha.
    apply (In_nth _ _ 0) in Ha. destruct Ha as (i & Hi & Ea).
    assert (P : In (nth i (combine M1 M2) (0, 0)) (combine M1 M2)) by (apply nth_In; rewrite combine_length; lia).
    rewrite combine_nth in P by auto. rewrite Ea in P.
    enough (nth i M2 0 = b) as <- by exact P.
    apply (H (a, nth i M2 0) (a, b)); try reflexivity; apply in_or_app; [now left|right; now left]. }
  assert (Mem2 : mem b M2 = true <-> In (a, b) (combine M1 M2)).
  { rewrite mem_In. split; [|apply in_combine_r]. intros Hb.
    apply (In_nth _ _ 0) in Hb. destruct Hb as (i & Hi & Eb).
    assert (P : In (nth i (combine M1 M2) (0, 0)) (combine M1 M2)) by (apply nth_In; rewrite combine_length; lia).
    rewrite combine_nth in P by auto. rewrite Eb in P.
    enough (nth i M1 0 = a) as <- by exact P.
    apply (H (nth i M1 0, b) (a, b)); try reflexivity; apply in_or_app; [now left|right; now left]. }
  destruct (mem a M1) eqn:Ea.
  - assert (Hin : In (a, b) (combine M1 M2)) by now apply Mem.
    assert (Eb : mem b M2 = true) by now apply Mem2. rewrite Eb.
    destruct (IH L2 M1 M2 EL EM) as (N & E1 & E2 & I1 & I2 & N1 & N2 & N3).
    { intros p q Hp Hq. apply H; apply in_or_app; [apply in_app_or in Hp as [Hp|Hp]|apply in_app_or in Hq as [Hq|Hq]]; auto; right; now right. }
    exists N. repeat split; auto; try (apply N3; assumption).
    + intros p Hp. right. auto.
    + intros p [<-|Hp]; auto.
  - assert (Eb : mem b M2 = false).
    { destruct (mem b M2) eqn:Eb; auto. destruct Mem2 as [Q _]. specialize (Q eq_refl). apply Mem in Q. discriminate. }
    rewrite Eb.
    assert (Ec : combine (M1 ++ [a]) (M2 ++ [b]) = combine M1 M2 ++ [(a, b)]).
    { clear -EM. revert M2 EM. induction M1 as [|x M1 IH]; intros [|y M2] EM; try discriminate; [reflexivity|]. cbn. f_equal. apply IH. now injection EM. }
    destruct (IH L2 (M1 ++ [a]) (M2 ++ [b]) EL) as (N & E1 & E2 & I1 & I2 & N1 & N2 & N3).
    { rewrite !app_length. cbn. lia. }
    { rewrite Ec. intros p q Hp Hq. rewrite <- app_assoc in Hp, Hq. now apply H. }
    exists ((a, b) :: N). cbn [map fst snd]. rewrite E1, E2, <- !app_assoc. cbn [app].
    assert (NaM : ~ In a M1) by (rewrite <- mem_In, Ea; discriminate).
    assert (NbM : ~ In b M2) by (rewrite <- mem_In, Eb; discriminate).
    split; auto. split; auto. split; [|split; [|split; [|split]]].
    + intros p [<-|Hp]; [now left|right; auto].
    + intros p [<-|Hp]; [left; now left|]. apply I2 in Hp. rewrite Ec in Hp. destruct Hp as [Hp|Hp]; [left; now right|].
      apply in_app_or in Hp. destruct Hp as [Hp|[<-|[]]]; [now right|left; now left].
    + constructor; auto. intros Hin. apply in_map_iff in Hin. destruct Hin as (p & Ep & Hp). apply (proj1 (N3 p Hp)). rewrite Ep. apply in_or_app. right. now left.
    + constructor; auto. intros Hin. apply in_map_iff in Hin. destruct Hin as (p & Ep & Hp). apply (proj2 (N3 p Hp)). rewrite Ep. apply in_or_app. right. now left.
    + intros p [<-|Hp]; [auto|]. destruct (N3 p Hp) as (Q1 & Q2). split; intros C; [apply Q1|apply Q2]; apply in_or_app; now left.
Qed.

(** ** The copying loop *)
Definition copy_ok (copy : piecewise -> piecewise -> mut (tensor R)) (c1 c2 : cfg) : Prop :=
  forall li lo, held li -> held lo -> cfg_of li = c1 -> cfg_of lo = c2 ->
  exists w', copy li lo = (w', None) /\ shape w' = shape (pw_w lo) /\ same_function li (with_w lo w').

Definition copy1 (copy : piecewise -> piecewise -> mut (tensor R)) (p : nat * nat) (h : heap) : mut heap :=
  match get h (fst p), get h (snd p) with
  | OPiecewise li, OPiecewise lo => let (w, e) := copy li lo in (set_obj h (snd p) (OPiecewise (with_w lo w)), e)
  | _, _ => (h, Some AttributeError)
  end.
Definition good_pair copy (h : heap) (p : nat * nat) : Prop :=
  exists c1 c2, is_pw h (fst p) c1 /\ is_pw h (snd p) c2 /\ copy_ok copy c1 c2.

Lemma reweighted_trans o1 o2 o3 : reweighted o1 o2 -> reweighted o2 o3 -> reweighted o1 o3.
Proof.
  intros H1 H2. destruct H1; auto; inversion H2; subst; try (constructor; cbn in *; congruence).
  - apply (RwPiecewise l w0). cbn in *. congruence.
  - apply (RwFunc l w0). cbn in *. congruence.
  - apply (RwPolyND l w0). cbn in *. congruence.
  - apply (RwPiecewiseND l w0). cbn in *. congruence.
  - apply (RwProduct l w0 b0); cbn in *; [congruence|]. destruct (pr_bias l), b, b0; try tauto; congruence.
Qed.
Lemma retrained_trans h1 h2 h3 : retrained h1 h2 -> retrained h2 h3 -> retrained h1 h3.
Proof.
  intros (L1 & R1) (L2 & R2). split; [congruence|]. intros i Hi. eapply reweighted_trans; [now apply R1|apply R2; lia].
Qed.
Lemma retrained_refl h : retrained h h.
Proof. split; auto. intros. constructor. Qed.

Lemma copy_pairs copy Q : forall h, NoDup (map snd Q) -> (forall i, In i (map fst Q) -> ~ In i (map snd Q)) ->
  (forall p, In p Q -> good_pair copy h p) ->
  exists h', mfold (copy1 copy) Q h = (h', None) /\ retrained h h' /\
    (forall k, ~ In k (map snd Q) -> get h' k = get h k) /\
    (forall p, In p Q -> exists li lo, get h (fst p) = OPiecewise li /\ get h' (snd p) = OPiecewise lo /\ held li /\ same_function li lo).
Proof.
  induction Q as [|[i j] Q IH]; intros h ND Sep G.
  { exists h. split; [reflexivity|]. split; [apply retrained_refl|]. split; auto. intros p []. }
  cbn [map fst snd] in *. inversion ND as [|? ? Nj ND']; subst.
  destruct (G (i, j) (or_introl eq_refl)) as (c1 & c2 & P1 & P2 & Ck). cbn [fst snd] in *.
  pose proof (is_pw_lt _ _ _ P2) as Lj.
  destruct P1 as (li & Ei & Hli & Ci), P2 as (lo & Ej & Hlo & Cj).
  destruct (Ck li lo Hli Hlo Ci Cj) as (w' & Ec & Sw & F).
  set (h1 := set_obj h j (OPiecewise (with_w lo w'))).
  assert (R1 : retrained h h1).
  { split; [now apply set_obj_length|]. intros k Hk. destruct (Nat.eq_dec j k) as [<-|Hne].
    - unfold h1. rewrite get_set_same, Ej by auto. now constructor.
    - unfold h1. rewrite get_set_other by auto. constructor. }
  destruct (IH h1) as (h' & E' & R' & U' & V').
  - exact ND'.
  - intros k Hk C. apply (Sep k); right; auto.
  - intros p Hp. destruct (G p (or_intror Hp)) as (d1 & d2 & Q1 & Q2 & Q3). exists d1, d2. split; [|split; auto]; eapply is_pw_retrained; eauto.
  - exists h'. split; [|split; [|split]].
    + cbn [mfold]. unfold copy1 at 1. cbn [fst snd]. rewrite Ei, Ej, Ec. exact E'.
    + eapply retrained_trans; eauto.
    + intros k Hk. rewrite U' by (intros C; apply Hk; now right). unfold h1. apply get_set_other; auto. intros ->. apply Hk. now left.
    + intros p [<-|Hp].
      * exists li, (with_w lo w'). cbn [fst snd]. repeat split; auto. rewrite U' by auto. unfold h1. now apply get_set_same.
      * destruct (V' p Hp) as (ai & ao & A1 & A2 & A3 & A4). exists ai, ao. repeat split; auto.
        rewrite <- A1. symmetry. unfold h1. apply get_set_other; auto. intros ->.
        apply (Sep (fst p)); [right; now apply in_map|now left].
Qed.

Lemma mfold_app {A B} (f : B -> A -> mut A) l l' s s' : mfold f l s = (s', None) -> mfold f (l ++ l') s = mfold f l' s'.
Proof.
  revert s. induction l as [|b l IH]; intros s E; cbn in *; [congruence|]. destruct (f b s) as [s1 [e|]]; [discriminate|]. now apply IH.
Qed.

(** Slots of the source and of the target. *)
Definition slot_rel (copy : piecewise -> piecewise -> mut (tensor R)) (s1 s2 : slot) : Prop :=
  match s1, s2 with
  | SP c1, SP c2 => copy_ok copy c1 c2
  | SSw cs1, SSw cs2 => Forall2 (copy_ok copy) cs1 cs2
  | SM f, SM f' => f = f'
  | SNl, SNl | SDrop, SDrop => True
  | _, _ => False
  end.
Definition good copy nl1 dl1 nl2 dl2 h (p : nat * nat) : Prop :=
  exists s1 s2, describes nl1 dl1 h (fst p) s1 /\ describes nl2 dl2 h (snd p) s2 /\ slot_rel copy s1 s2.
Definition leafs (h : heap) (p : nat * nat) : list (nat * nat) := combine (leaves h (fst p)) (leaves h (snd p)).
Definition body copy (p : nat * nat) (h : heap) : mut heap :=
  if has_refine (get h (fst p)) then obj_copy copy (S (fst p)) (fst p) (snd p) h else (h, None).

Lemma mfold_ext {A B} (f g : B -> A -> mut A) l : (forall b s, In b l -> f b s = g b s) -> forall s, mfold f l s = mfold g l s.
Proof.
  induction l as [|b l IH]; intros H s; [reflexivity|]. cbn. rewrite H by now left. destruct (g b s) as [s1 [e|]]; [reflexivity|].
  apply IH. intros. apply H. now right.
Qed.
(** As [mfold_ext], along heaps in which the pairs remain piecewise layers. *)
Lemma mfold_leafs copy fuel Q h : (forall p, In p Q -> exists l l', get h (fst p) = OPiecewise l /\ get h (snd p) = OPiecewise l') ->
  mfold (fun p => obj_copy copy (S fuel) (fst p) (snd p)) Q h = mfold (copy1 copy) Q h.
Proof.
  revert h. induction Q as [|p Q IH]; intros h H; [reflexivity|]. cbn [mfold].
  destruct (H p (or_introl eq_refl)) as (l & l' & E & E').
  assert (Eq : obj_copy copy (S fuel) (fst p) (snd p) h = copy1 copy p h) by (cbn [obj_copy]; unfold copy1; now rewrite E, E').
  rewrite Eq. unfold copy1. rewrite E, E'. destruct (copy l l') as [w [e|]]; [reflexivity|]. apply IH.
  intros q Hq. destruct (H q (or_intror Hq)) as (m & m' & F & F').
  assert (Lp : snd p < length h) by (destruct (Nat.lt_ge_cases (snd p) (length h)); auto; rewrite get_out in E' by auto; discriminate).
  assert (K : forall k o, get h k = OPiecewise o -> exists o', get (set_obj h (snd p) (OPiecewise (with_w l' w))) k = OPiecewise o').
  { intros k o Ek. destruct (Nat.eq_dec (snd p) k) as [<-|Hne]; [rewrite get_set_same by auto; eauto|rewrite get_set_other by auto; eauto]. }
  destruct (K _ _ F) as (o & Eo). destruct (K _ _ F') as (o' & Eo'). eauto.
Qed.

Lemma body_leafs copy nl1 dl1 nl2 dl2 h p : wf_heap h -> good copy nl1 dl1 nl2 dl2 h p ->
  body copy p h = mfold (copy1 copy) (leafs h p) h /\ (forall q, In q (leafs h p) -> good_pair copy h q) /\
  map fst (leafs h p) = leaves h (fst p) /\ map snd (leafs h p) = leaves h (snd p).
Proof.
  intros W (s1 & s2 & (L1 & D1) & (L2 & D2) & Rl). unfold body, leafs, leaves.
  destruct s1 as [c1|cs1|f1| |], s2 as [c2|cs2|f2| |]; cbn [slot_rel] in Rl; try contradiction.
  - pose proof D1 as (l & E1 & _). pose proof D2 as (l' & E2 & _). rewrite E1, E2. cbn [has_refine combine map fst snd].
    repeat split; auto.
    + cbn [obj_copy mfold]. unfold copy1. cbn [fst snd]. destruct p as [i j]. cbn [fst snd] in *. rewrite E1, E2. destruct (copy l l') as [w [e|]]; reflexivity.
    + intros q [<-|[]]. exists c1, c2. auto.
  - destruct D1 as (I & O & ls & E1 & F1), D2 as (I' & O' & ls' & E2 & F2). rewrite E1, E2. cbn [has_refine].
    assert (Len : length ls = length ls').
    { rewrite (Forall2_len _ _ _ F1), (Forall2_len _ _ _ F2). eapply Forall2_len; eauto. }
    assert (G : forall q, In q (combine ls ls') -> good_pair copy h q).
    { clear E1 E2 Len L1 L2. revert cs2 ls' F2 Rl. induction F1 as [|k c ls cs1 P1 F1 IH]; intros cs2 ls' F2 Rl q Hq; [destruct Hq|].
      inversion Rl as [|? c' ? cs2' Ck Rl']; subst. inversion F2 as [|k' ? ls2 ? P2 F2']; subst. destruct Hq as [<-|Hq].
      - exists c, c'. auto.
      - eapply IH; eauto. }
    split; [|split; [exact G|split]].
    + cbn [obj_copy]. rewrite E1, E2. destruct (fst p) as [|fuel] eqn:Ep.
      * destruct ls as [|k ls]; [reflexivity|]. exfalso. assert (k < 0); [|lia]. apply (W 0); [auto|]. rewrite E1. now left.
      * apply mfold_leafs. intros q Hq. destruct (G q Hq) as (? & ? & (a & Ea & _) & (b & Eb & _) & _). eauto.
    + clear -Len. revert ls' Len. induction ls as [|a ls IH]; intros [|b ls'] Len; try discriminate; [reflexivity|]. cbn. f_equal. apply IH. now injection Len.
    + clear -Len. revert ls' Len. induction ls as [|a ls IH]; intros [|b ls'] Len; try discriminate; [reflexivity|]. cbn. f_equal. apply IH. now injection Len.
  - destruct D1 as (ps & E1), D2 as (ps' & E2). rewrite E1, E2. repeat split; auto. intros q [].
  - destruct D1 as (_ & f & ps & E1), D2 as (_ & f' & ps' & E2). rewrite E1, E2. repeat split; auto. intros q [].
  - destruct D1 as (_ & f & ps & E1), D2 as (_ & f' & ps' & E2). rewrite E1, E2. repeat split; auto. intros q [].
Qed.

Lemma good_retrained copy nl1 dl1 nl2 dl2 h h' p : retrained h h' -> good copy nl1 dl1 nl2 dl2 h p -> good copy nl1 dl1 nl2 dl2 h' p.
Proof. intros R (s1 & s2 & D1 & D2 & Rl). exists s1, s2. split; [|split; auto]; eapply describes_retrained; eauto. Qed.
Lemma leafs_retrained copy nl1 dl1 nl2 dl2 h h' p : retrained h h' -> good copy nl1 dl1 nl2 dl2 h p -> leafs h' p = leafs h p.
Proof. intros R (s1 & s2 & (L1 & _) & (L2 & _) & _). unfold leafs. now rewrite !(leaves_retrained h h'). Qed.

Lemma NoDup_app_inv {A} (l l' : list A) : NoDup (l ++ l') -> NoDup l /\ NoDup l' /\ forall a, In a l -> ~ In a l'.
Proof.
  induction l as [|a l IH]; cbn; intros H; [repeat split; auto; constructor|]. inversion H as [|? ? Na N]; subst. destruct (IH N) as (N1 & N2 & D).
  split; [constructor; auto; intros C; apply Na, in_or_app; now left|]. split; auto.
  intros b [<-|Hb] C; [apply Na, in_or_app; now right|now apply (D b)].
Qed.

Lemma copy_all copy nl1 dl1 nl2 dl2 N : forall h, wf_heap h -> (forall p, In p N -> good copy nl1 dl1 nl2 dl2 h p) ->
  NoDup (map snd (flat_map (leafs h) N)) ->
  (forall i, In i (map fst (flat_map (leafs h) N)) -> ~ In i (map snd (flat_map (leafs h) N))) ->
  mfold (body copy) N h = mfold (copy1 copy) (flat_map (leafs h) N) h.
Proof.
  induction N as [|p N IH]; intros h W G ND Sep; [reflexivity|]. cbn [flat_map mfold] in *. rewrite !map_app in *.
  apply NoDup_app_inv in ND. destruct ND as (ND1 & ND2 & Dj).
  destruct (body_leafs copy nl1 dl1 nl2 dl2 h p W (G p (or_introl eq_refl))) as (Eb & Gp & _). rewrite Eb.
  destruct (copy_pairs copy (leafs h p) h ND1) as (h1 & E1 & R1 & _); auto.
  { intros i Hi C. apply (Sep i); apply in_or_app; now left. }
  rewrite E1. rewrite (mfold_app _ _ _ _ _ E1).
  assert (Lf : flat_map (leafs h1) N = flat_map (leafs h) N).
  { clear -R1 G. induction N as [|q N IH]; [reflexivity|]. cbn. rewrite (leafs_retrained copy nl1 dl1 nl2 dl2 h h1) by (auto; apply G; right; now left).
    f_equal. apply IH. intros r [<-|Hr]; apply G; [now left|right; now right]. }
  rewrite <- Lf. apply IH.
  - now apply (retrained_wf h).
  - intros q Hq. apply (good_retrained copy _ _ _ _ h); auto. apply G. now right.
  - now rewrite Lf.
  - rewrite Lf. intros i Hi C. apply (Sep i); apply in_or_app; now right.
Qed.

(** ** Two networks *)
Definition slot_io (s : slot) (W W' : nat) : Prop :=
  match s with
  | SP c => c_in c = W /\ c_out c = W'
  | SSw cs => Forall (fun c => c_in c = W /\ c_out c = W') cs
  | SM f => shape_preserving f /\ W' = W
  | SNl | SDrop => W' = W
  end.
Inductive slots_ok : nat -> list slot -> nat -> Prop :=
| so_nil W : slots_ok W [] W
| so_cons W W1 W2 s Sl : slot_io s W W1 -> slots_ok W1 Sl W2 -> slots_ok W (s :: Sl) W2.
Lemma slots_ok_app W W1 W2 Sl Sl' : slots_ok W Sl W1 -> slots_ok W1 Sl' W2 -> slots_ok W (Sl ++ Sl') W2.
Proof. induction 1; auto. intros H'. econstructor; eauto. Qed.
Lemma slots_ok_one W W1 s : slot_io s W W1 -> slots_ok W [s] W1.
Proof. intros H. econstructor; [exact H|constructor]. Qed.

Lemma describes_childless nl dl h k s : describes nl dl h k s -> children (get h k) = [] /\ is_sequential (get h k) = false.
Proof.
  intros (_ & D). destruct s.
  - destruct D as (l & -> & _). auto.
  - destruct D as (I & O & ls & -> & _). auto.
  - destruct D as (ps & ->). auto.
  - destruct D as (_ & f & ps & ->). auto.
  - destruct D as (_ & f & ps & ->). auto.
Qed.
Lemma built_childless base nl dl h L Sl k : built base nl dl h L Sl -> In k L ->
  k < length h /\ children (get h k) = [] /\ is_sequential (get h k) = false.
Proof.
  intros B. pose proof (b_desc _ _ _ _ _ _ B) as F. clear B.
  induction F as [|k' s L' Sl' D F IH]; intros Hin; [destruct Hin|destruct Hin as [<-|Hin]]; auto.
  split; [apply D|]. eapply describes_childless; eauto.
Qed.

Lemma slot_rel_X copy s1 s2 : slot_rel copy s1 s2 -> is_X s1 = is_X s2 /\ (is_X s1 = true -> s1 = s2).
Proof. destruct s1, s2; cbn; try contradiction; intros H; split; auto; discriminate. Qed.

Lemma flat_NoDup {A B} (f : A -> list B) L : NoDup (flat_map f L) -> forall N, NoDup N -> incl N L -> NoDup (flat_map f N).
Proof.
  intros H.
  assert (U : forall a b x, In a L -> In b L -> In x (f a) -> In x (f b) -> a = b).
  { induction L as [|c L IH]; intros a b x Ha Hb Xa Xb; [destruct Ha|]. cbn in H. apply NoDup_app_inv in H. destruct H as (_ & H & D).
    destruct Ha as [<-|Ha], Hb as [<-|Hb]; auto.
    - exfalso. apply (D x Xa). apply in_flat_map. eauto.
    - exfalso. apply (D x Xb). apply in_flat_map. eauto.
    - eapply IH; eauto. }
  assert (V : forall a, In a L -> NoDup (f a)).
  { clear U. induction L as [|c L IH]; intros a Ha; [destruct Ha|]. cbn in H. apply NoDup_app_inv in H. destruct H as (H1 & H & _).
    destruct Ha as [<-|Ha]; auto. }
  induction N as [|a N IH]; intros ND Inc; [constructor|]. inversion ND; subst. cbn. apply NoDup_app_disj.
  - apply V, Inc. now left.
  - apply IH; auto. intros b Hb. apply Inc. now right.
  - intros x Hx C. apply in_flat_map in C. destruct C as (b & Hb & Xb).
    assert (a = b) by (apply (U a b x); auto; apply Inc; [now left|now right]). subst. contradiction.
Qed.

Lemma combine_in_nth {A B} (l : list A) (l' : list B) p a b : In p (combine l l') -> exists i, i < length l /\ i < length l' /\ p = (nth i l a, nth i l' b).
Proof.
  revert l'. induction l as [|x l IH]; intros [|y l'] H; try (now destruct H). destruct H as [<-|H].
  - exists 0. cbn. repeat split; lia.
  - destruct (IH l' H) as (i & H1 & H2 & ->). exists (S i). cbn. repeat split; lia.
Qed.

Lemma layers_firsts h net d k1 k2 m L : wf_heap h -> net < length h -> get h net = OMLP d k1 k2 m -> m < length h -> get h m = OSequential L ->
  (forall k, In k L -> k < length h /\ children (get h k) = [] /\ is_sequential (get h k) = false) ->
  forall N, firsts [m] L = [m] ++ N -> incl N L -> layers_of h net = Ok N.
Proof.
  intros W Ln En Lm Em F N EN Inc. unfold layers_of, model_of. rewrite En. cbn [rbind].
  rewrite (modules_sequential h m L) by (auto; intros i Hi; destruct (F i Hi) as (? & ? & _); auto).
  rewrite EN. cbn [app filter]. rewrite Em. cbn [is_sequential negb]. f_equal.
  clear EN. induction N as [|k N IH]; [reflexivity|]. cbn. destruct (F k) as (_ & _ & ->); [apply Inc; now left|]. cbn [negb]. f_equal.
  apply IH. intros j Hj. apply Inc. now right.
Qed.

Section TwoNetworks.
Variable copy : piecewise -> piecewise -> mut (tensor R).
Variables (h : heap) (net1 net2 d1 e1 f1 d2 e2 f2 m1 m2 b1 b2 nl1 nl2 dl1 dl2 : nat) (L1 L2 : list nat) (S1 S2 : list slot) (W W' : nat).
Hypotheses (Wf : wf_heap h)
  (N1 : net1 < length h) (G1 : get h net1 = OMLP d1 e1 f1 m1) (M1 : m1 < length h) (Q1 : get h m1 = OSequential L1)
  (N2 : net2 < length h) (G2 : get h net2 = OMLP d2 e2 f2 m2) (M2 : m2 < length h) (Q2 : get h m2 = OSequential L2)
  (B1 : built b1 nl1 dl1 h L1 S1) (B2 : built b2 nl2 dl2 h L2 S2) (X1 : ~ In m1 L1) (X2 : ~ In m2 L2)
  (Lo : net1 <= dl2)
  (Rl : Forall2 (slot_rel copy) S1 S2) (Io : slots_ok W S1 W')
  (Nl : In SNl S1 -> exists f ps ps', shape_preserving f /\ get h nl1 = OModule f ps /\ get h nl2 = OModule f ps')
  (Dl : In SDrop S1 -> exists f ps ps', shape_preserving f /\ get h dl1 = OModule f ps /\ get h dl2 = OModule f ps').

Lemma parallel_ids p q : In p (combine [m1] [m2] ++ combine L1 L2) -> In q (combine [m1] [m2] ++ combine L1 L2) ->
  (fst p = fst q <-> snd p = snd q).
Proof.
  pose proof (Forall2_len _ _ _ (b_desc _ _ _ _ _ _ B1)) as E1. pose proof (Forall2_len _ _ _ (b_desc _ _ _ _ _ _ B2)) as E2.
  pose proof (Forall2_len _ _ _ Rl) as E3.
  cbn [combine app]. intros [<-|Hp] [<-|Hq]; cbn [fst snd].
  - tauto.
  - apply combine_in_nth with (a := 0) (b := 0) in Hq. destruct Hq as (i & Hi & Hi' & ->). cbn [fst snd].
    split; intros C; exfalso; [apply X1|apply X2]; rewrite C; now apply nth_In.
  - apply combine_in_nth with (a := 0) (b := 0) in Hp. destruct Hp as (i & Hi & Hi' & ->). cbn [fst snd].
    split; intros C; exfalso; [apply X1|apply X2]; rewrite <- C; now apply nth_In.
  - apply combine_in_nth with (a := 0) (b := 0) in Hp. destruct Hp as (i & Hi & Hi' & ->).
    apply combine_in_nth with (a := 0) (b := 0) in Hq. destruct Hq as (j & Hj & Hj' & ->). cbn [fst snd].
    rewrite (b_uniq _ _ _ _ _ _ B1 i j Hi Hj), (b_uniq _ _ _ _ _ _ B2 i j Hi' Hj').
    pose proof (Forall2_nth _ _ _ i (SSw []) (SSw []) Rl ltac:(lia)) as Ri. pose proof (Forall2_nth _ _ _ j (SSw []) (SSw []) Rl ltac:(lia)) as Rj.
    apply slot_rel_X in Ri. apply slot_rel_X in Rj. destruct Ri as (Xi & Yi), Rj as (Xj & Yj).
    split; intros [C|[C D]]; auto; right.
    + rewrite <- Xi. split; auto. rewrite <- Yi by auto. rewrite D. apply Yj. now rewrite <- D.
    + rewrite <- Xi in C. split; auto. rewrite Yi by auto. rewrite D. symmetry. apply Yj. rewrite Xj, <- D, <- Xi. exact C.
Qed.

Lemma good_all p : In p (combine L1 L2) -> good copy nl1 dl1 nl2 dl2 h p.
Proof.
  pose proof (Forall2_len _ _ _ (b_desc _ _ _ _ _ _ B1)) as E1.
  intros Hp. apply combine_in_nth with (a := 0) (b := 0) in Hp. destruct Hp as (i & Hi & Hi' & ->).
  exists (nth i S1 (SSw [])), (nth i S2 (SSw [])). cbn [fst snd]. split; [|split].
  - apply Forall2_nth; auto. apply B1.
  - apply Forall2_nth; auto. apply B2.
  - apply Forall2_nth; auto. lia.
Qed.

Lemma two_networks : exists h', copy_network copy net1 net2 h = (h', None) /\ retrained h h' /\
  (forall k, k <= dl2 -> get h' k = get h k) /\ sim W W' (call h net1) (call h' net2).
Proof.
  pose proof (Forall2_len _ _ _ (b_desc _ _ _ _ _ _ B1)) as E1. pose proof (Forall2_len _ _ _ (b_desc _ _ _ _ _ _ B2)) as E2.
  pose proof (Forall2_len _ _ _ Rl) as E3.
  destruct (firsts_parallel L1 L2 [m1] [m2]) as (N & F1 & F2 & I1 & I2 & ND1 & ND2 & _); [lia|reflexivity|apply parallel_ids|].
  assert (Inc1 : incl (map fst N) L1).
  { intros k Hk. apply in_map_iff in Hk. destruct Hk as ([i j] & <- & Hp). apply I1 in Hp. now apply in_combine_l in Hp. }
  assert (Inc2 : incl (map snd N) L2).
  { intros k Hk. apply in_map_iff in Hk. destruct Hk as ([i j] & <- & Hp). apply I1 in Hp. now apply in_combine_r in Hp. }
  unfold copy_network.
  rewrite (layers_firsts h net1 d1 e1 f1 m1 L1 Wf N1 G1 M1 Q1 (fun k => built_childless _ _ _ _ _ _ k B1) _ F1 Inc1).
  rewrite (layers_firsts h net2 d2 e2 f2 m2 L2 Wf N2 G2 M2 Q2 (fun k => built_childless _ _ _ _ _ _ k B2) _ F2 Inc2).
  cbn [mbind].
  assert (Ec : combine (map fst N) (map snd N) = N) by (clear; induction N as [|[i j] N IH]; cbn; congruence).
  rewrite Ec. change (fun (p : nat * nat) (h0 : heap) => if has_refine (get h0 (fst p)) then obj_copy copy (S (fst p)) (fst p) (snd p) h0 else (h0, None)) with (body copy).
  assert (Gd : forall p, In p N -> good copy nl1 dl1 nl2 dl2 h p) by (intros p Hp; apply good_all, I1, Hp).
  assert (Ms : map fst (flat_map (leafs h) N) = flat_map (leaves h) (map fst N) /\ map snd (flat_map (leafs h) N) = flat_map (leaves h) (map snd N)).
  { clear -Gd Wf. induction N as [|p N IH]; [split; reflexivity|]. cbn [flat_map map]. rewrite !map_app.
    destruct (body_leafs copy nl1 dl1 nl2 dl2 h p Wf (Gd p (or_introl eq_refl))) as (_ & _ & -> & ->).
    destruct IH as (-> & ->); [|split; reflexivity]. intros q Hq. apply Gd. now right. }
  destruct Ms as (Ms1 & Ms2).
  assert (NDs : NoDup (map snd (flat_map (leafs h) N))).
  { rewrite Ms2. apply (flat_NoDup (leaves h) L2); auto. apply B2. }
  assert (Tgt : forall k, In k (map snd (flat_map (leafs h) N)) -> dl2 < k).
  { rewrite Ms2. intros k Hk. apply (b_leaf_base _ _ _ _ _ _ B2). apply in_flat_map in Hk. destruct Hk as (j & Hj & Hk). apply in_flat_map. exists j. split; auto. }
  assert (Lt1 : forall k, In k L1 -> k < m1).
  { intros k Hk. apply (Wf m1 M1). now rewrite Q1. }
  assert (Ltm : m1 < net1) by (apply (Wf net1 N1); rewrite G1; cbn; auto).
  assert (Src : forall k, In k (map fst (flat_map (leafs h) N)) -> k < dl2).
  { rewrite Ms1. intros k Hk. apply in_flat_map in Hk. destruct Hk as (j & Hj & Hk). apply Inc1 in Hj. apply Lt1 in Hj.
    assert (k <= j); [|lia]. unfold leaves in Hk. destruct (get h j) eqn:Ej; try (now destruct Hk).
    - destruct Hk as [<-|[]]. lia.
    - assert (k < j); [|lia]. apply (Wf j); [lia|]. rewrite Ej. cbn. apply in_or_app. now left. }
  assert (Sep : forall i, In i (map fst (flat_map (leafs h) N)) -> ~ In i (map snd (flat_map (leafs h) N))).
  { intros i Hi C. apply Src in Hi. apply Tgt in C. lia. }
  rewrite (copy_all copy nl1 dl1 nl2 dl2 N h Wf Gd NDs Sep).
  destruct (copy_pairs copy (flat_map (leafs h) N) h NDs Sep) as (h' & Eh & Rt & Un & Vl).
  { intros q Hq. apply in_flat_map in Hq. destruct Hq as (p & Hp & Hq).
    destruct (body_leafs copy nl1 dl1 nl2 dl2 h p Wf (Gd p Hp)) as (_ & Gq & _). now apply Gq. }
  exists h'. split; [exact Eh|]. split; [exact Rt|].
  assert (Low : forall k, k <= dl2 -> get h' k = get h k).
  { intros k Hk. apply Un. intros C. apply Tgt in C. lia. }
  split; [exact Low|].
  assert (Wf' : wf_heap h') by now apply (retrained_wf h).
  assert (Len : length h' = length h) by apply Rt.
  apply (sim_ext W W' _ _ (run (call h) L1) (run (call h') L2)).
  { intros x. rewrite call_unfold, G1 by auto. cbn [obj_forward]. rewrite call_unfold, Q1 by auto. reflexivity. }
  { pose proof (retrained_same h h' net2 Rt N2) as R2. rewrite G2 in R2. pose proof (retrained_same h h' m2 Rt M2) as R3. rewrite Q2 in R3.
    intros x. rewrite call_unfold, R2 by lia || auto. cbn [obj_forward]. rewrite call_unfold, R3 by lia || auto. reflexivity. }
  apply chain_run.
  assert (Pairs : forall p q, In p (combine L1 L2) -> In q (leafs h p) ->
     exists li lo, get h (fst q) = OPiecewise li /\ get h' (snd q) = OPiecewise lo /\ held li /\ same_function li lo).
  { intros p q Hp Hq. destruct (I2 p Hp) as [Hn|[<-|[]]].
    - apply Vl. apply in_flat_map. eauto.
    - exfalso. apply X1. now apply in_combine_l in Hp. }
  assert (D1 := b_desc _ _ _ _ _ _ B1). assert (D2 := b_desc _ _ _ _ _ _ B2).
  assert (Callpw : forall i j c, is_pw h i c -> j < length h ->
     (exists li lo, get h i = OPiecewise li /\ get h' j = OPiecewise lo /\ held li /\ same_function li lo) ->
     sim (c_in c) (c_out c) (call h i) (call h' j)).
  { intros i j c Pi Lj (li & lo & A1 & A2 & A3 & A4). pose proof (is_pw_lt _ _ _ Pi) as Li.
    destruct Pi as (l & El & _ & Ec'). rewrite A1 in El. injection El as <-. subst c. cbn [cfg_of c_in c_out].
    apply (sim_ext _ _ _ _ (Piecewise_forward li) (Piecewise_forward lo)); [| |now apply sim_pw].
    - intros x. now rewrite call_unfold, A1.
    - intros x. rewrite call_unfold by (auto; lia). now rewrite A2. }
  clear -D1 D2 Rl Io Nl Dl Pairs Rt Wf Wf' Len Callpw.
  revert S2 L2 D2 Rl Pairs. revert W Io.
  induction D1 as [|k1 s1 L1' S1' Dk1 D1 IH]; intros W0 Io S2' L2' D2 Rl Pairs.
  { inversion Rl; subst. inversion D2; subst. inversion Io; subst. constructor. }
  inversion Rl as [|? s2 ? S2t R0 Rt']; subst. inversion D2 as [|k2 ? L2t ? Dk2 D2t]; subst. inversion Io as [|? W1 ? ? ? Io0 Io1]; subst.
  econstructor.
  2:{ apply (IH ltac:(intros Hin; apply Nl; now right) ltac:(intros Hin; apply Dl; now right) W1 Io1 S2t L2t D2t Rt').
      intros p q Hp Hq. apply (Pairs p q); auto. now right. }
  assert (P0 : forall q, In q (leafs h (k1, k2)) -> exists li lo, get h (fst q) = OPiecewise li /\ get h' (snd q) = OPiecewise lo /\ held li /\ same_function li lo)
    by (intros q Hq; apply (Pairs (k1, k2) q); auto; now left).
  clear IH D1 D2 D2t Pairs Rl Rt' Io Io1.
  assert (Nl' : s1 = SNl -> exists f ps ps', shape_preserving f /\ get h nl1 = OModule f ps /\ get h nl2 = OModule f ps') by (intros ->; apply Nl; now left).
  assert (Dl' : s1 = SDrop -> exists f ps ps', shape_preserving f /\ get h dl1 = OModule f ps /\ get h dl2 = OModule f ps') by (intros ->; apply Dl; now left).
  clear Nl Dl. destruct Dk1 as (L1k & Dk1), Dk2 as (L2k & Dk2).
  assert (Mod : forall f ps ps', get h k1 = OModule f ps -> get h k2 = OModule f ps' -> shape_preserving f -> sim W0 W0 (call h k1) (call h' k2)).
  { intros f ps ps' A1 A2 Sf. pose proof (retrained_same h h' k2 Rt L2k) as R2. rewrite A2 in R2.
    apply (sim_ext _ _ _ _ f f); [| |now apply sim_module].
    - intros x. now rewrite call_unfold, A1.
    - intros x. rewrite call_unfold by (auto; lia). now rewrite R2. }
  destruct s1 as [c1|cs1|g1| |], s2 as [c2|cs2|g2| |]; cbn [slot_rel] in R0; try contradiction; cbn [slot_io] in Io0.
  - destruct Io0 as (<- & <-). apply Callpw; auto. apply (P0 (k1, k2)). unfold leafs, leaves. cbn [fst snd].
    destruct Dk1 as (l & -> & _), Dk2 as (l' & -> & _). now left.
  - destruct Dk1 as (I & O & ls & A1 & F1), Dk2 as (I' & O' & ls' & A2 & F2).
    pose proof (retrained_same h h' k2 Rt L2k) as R2. rewrite A2 in R2.
    apply (sim_ext _ _ _ _ (obj_forward (call h) (OSwitch I O ls None)) (obj_forward (call h') (OSwitch I' O' ls' None))).
    { intros x. rewrite call_unfold by auto. now rewrite A1. }
    { intros x. rewrite call_unfold by (auto; lia). now rewrite R2. }
    apply sim_switch. unfold leafs, leaves in P0. cbn [fst snd] in P0. rewrite A1, A2 in P0.
    clear A1 A2 R2 L1k L2k Mod Nl' Dl'. revert cs2 R0 ls' F2 P0. induction F1 as [|i c ls cs1 Pi F1 IH]; intros cs2 R0 ls' F2 P0.
    { inversion R0; subst. inversion F2; subst. constructor. }
    inversion R0 as [|? c' ? cs2' Ck R0']; subst. inversion F2 as [|i' ? ls2 ? Pi' F2']; subst. inversion Io0 as [|? ? (Ci & Co) Io']; subst.
    constructor.
    + apply Callpw; auto; [eapply is_pw_lt; eauto|]. apply (P0 (i, i')). now left.
    + apply (IH Io' cs2' R0' ls2 F2'). intros q Hq. apply P0. now right.
  - subst g2. destruct Io0 as (Sf & ->), Dk1 as (ps & A1), Dk2 as (ps' & A2). eapply Mod; eauto.
  - destruct (Nl' eq_refl) as (f & ps & ps' & Sf & A1 & A2). destruct Dk1 as (-> & _), Dk2 as (-> & _). subst W1. eapply Mod; eauto.
  - destruct (Dl' eq_refl) as (f & ps & ps' & Sf & A1 & A2). destruct Dk1 as (-> & _), Dk2 as (-> & _). subst W1. eapply Mod; eauto.
Qed.
End TwoNetworks.
