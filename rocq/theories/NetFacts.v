(** * Lemmas on networks of module objects. *)
From Coq Require Import String Reals Lra ZArith List Lia Bool Arith.
From Verif Require Import Spec Tensor Utils LagrangePolynomial Basis PolynomialLayers Refine ProductLayer LagrangeND Layers Networks
  Observe ObserveNet TensorFacts LayerFacts SegmentFacts LayerProofs RefineFacts HeapFacts.
Import ListNotations.
Local Open Scope R_scope.
Local Open Scope nat_scope.

(** ** same_result *)
Lemma same_result_refl r : same_result r r.
Proof. destruct r; [apply teq_refl|reflexivity]. Qed.
Lemma same_result_trans r s t : same_result r s -> same_result s t -> same_result r t.
Proof. destruct r, s, t; cbn; try tauto; try congruence. apply teq_trans. Qed.
Lemma same_result_sym r s : same_result r s -> same_result s r.
Proof. destruct r, s; cbn; try tauto; try congruence. apply teq_sym. Qed.

(** ** Configurations of piecewise layers *)
Record cfg := mkCfg { c_cls : pw_class; c_n : nat; c_in : nat; c_out : nat; c_seg : nat; c_len : R; c_per : option R }.
Definition cfg_of (l : piecewise) : cfg :=
  mkCfg (pw_cls l) (pw_n l) (pw_in l) (pw_out l) (pw_segments l) (pw_length l) (pw_periodicity l).
Definition is_pw (h : heap) (k : nat) (c : cfg) : Prop := exists l, get h k = OPiecewise l /\ held l /\ cfg_of l = c.

Inductive slot :=
| SP (c : cfg)
| SSw (cs : list cfg)
| SM (f : tensor R -> res (tensor R))
| SNl | SDrop.
Definition is_X (s : slot) : bool := match s with SNl | SDrop => true | _ => false end.

(** What stands at position [k] of heap [h]; [nl], [dl]: the shared activation and dropout modules. *)
Definition describes (nl dl : nat) (h : heap) (k : nat) (s : slot) : Prop :=
  k < length h /\
  match s with
  | SP c => is_pw h k c
  | SSw cs => exists I O ls, get h k = OSwitch I O ls None /\ Forall2 (is_pw h) ls cs
  | SM f => exists ps, get h k = OModule f ps
  | SNl => k = nl /\ exists f ps, get h k = OModule f ps
  | SDrop => k = dl /\ exists f ps, get h k = OModule f ps
  end.

Lemma is_pw_lt h k c : is_pw h k c -> k < length h.
Proof. intros (l & E & _). destruct (Nat.lt_ge_cases k (length h)); auto. rewrite get_out in E by auto. discriminate. Qed.
Lemma is_pw_app h e k c : is_pw h k c -> is_pw (h ++ e) k c.
Proof. intros H. pose proof (is_pw_lt _ _ _ H). destruct H as (l & E & H). exists l. now rewrite get_app_l. Qed.
Lemma describes_app nl dl h e k s : describes nl dl h k s -> describes nl dl (h ++ e) k s.
Proof.
  intros (L & H). split; [rewrite app_length; lia|]. destruct s; try (now apply is_pw_app); rewrite get_app_l by auto; auto.
  destruct H as (I & O & ls & E & F). exists I, O, ls. split; auto. clear E. induction F; constructor; auto using is_pw_app.
Qed.

Lemma is_pw_retrained h h' k c : retrained h h' -> is_pw h k c -> is_pw h' k c.
Proof.
  intros (_ & R) H. pose proof (is_pw_lt _ _ _ H) as L. destruct H as (l & E & Hl & Hc). specialize (R k L). rewrite E in R.
  inversion R; subst; [|exists l; auto]. eexists. split; [symmetry; eassumption|]. split; [now apply with_w_held|reflexivity].
Qed.
Lemma retrained_same h h' k : retrained h h' -> k < length h ->
  match get h k with OPiecewise _ | OFunc _ | OPolyND _ | OPiecewiseND _ | OProduct _ | OLinear _ _ => True | o => get h' k = o end.
Proof. intros (_ & R) L. specialize (R k L). inversion R; try exact Logic.I. destruct (get h k); auto. Qed.
Lemma describes_retrained nl dl h h' k s : retrained h h' -> describes nl dl h k s -> describes nl dl h' k s.
Proof.
  intros R (L & H). pose proof (retrained_same h h' k R L) as S. split; [destruct R as (-> & _); exact L|].
  destruct s; try (now apply (is_pw_retrained h)).
  - destruct H as (I & O & ls & E & F). rewrite E in S. exists I, O, ls. split; auto. clear E S.
    induction F; constructor; eauto using is_pw_retrained.
  - destruct H as (ps & E). rewrite E in S. eauto.
  - destruct H as (-> & f & ps & E). rewrite E in S. eauto.
  - destruct H as (-> & f & ps & E). rewrite E in S. eauto.
Qed.

Lemma retrained_refs h h' : retrained h h' -> forall i, i < length h -> refs (get h' i) = refs (get h i).
Proof. intros (_ & R) i L. specialize (R i L). inversion R; reflexivity. Qed.
Lemma retrained_wf h h' : retrained h h' -> wf_heap h -> wf_heap h'.
Proof. intros R. apply wf_same_refs; [apply R|now apply retrained_refs]. Qed.

(** ** Layer lists *)

(** Objects that hold the weights of [k]. *)
Definition leaves (h : heap) (k : nat) : list nat :=
  match get h k with OPiecewise _ => [k] | OSwitch _ _ ls _ => ls | _ => [] end.

(** Positions [a] and [b] hold the same object exactly when they are the same position or both the
    shared activation or both the shared dropout. *)
Definition uniq (L : list nat) (Sl : list slot) : Prop :=
  forall a b, a < length L -> b < length L ->
    (nth a L 0 = nth b L 0 <-> a = b \/ (is_X (nth a Sl (SSw [])) = true /\ nth a Sl (SSw []) = nth b Sl (SSw []))).

Record built (base nl dl : nat) (h : heap) (L : list nat) (Sl : list slot) : Prop := mkBuilt {
  b_wf : wf_heap h;
  b_nl : In SNl Sl -> nl < dl;
  b_dl : base <= dl;
  b_desc : Forall2 (describes nl dl h) L Sl;
  b_fresh : Forall2 (fun k s => is_X s = true \/ dl < k) L Sl;
  b_uniq : uniq L Sl;
  b_leaves : NoDup (flat_map (leaves h) L);
  b_leaf_base : forall k, In k (flat_map (leaves h) L) -> dl < k /\ k < length h }.

Lemma Forall2_nth {A B} (P : A -> B -> Prop) l l' i a b : Forall2 P l l' -> i < length l -> P (nth i l a) (nth i l' b).
Proof. intros F. revert i. induction F as [|x y l l' Hxy F IH]; intros i Hi; cbn in *; [lia|]. destruct i; auto. apply IH. lia. Qed.
Lemma Forall2_len {A B} (P : A -> B -> Prop) l l' : Forall2 P l l' -> length l = length l'.
Proof. induction 1; cbn; congruence. Qed.

Lemma built_lt base nl dl h L Sl k : built base nl dl h L Sl -> In k L -> k < length h.
Proof.
  intros B. pose proof (b_desc _ _ _ _ _ _ B) as F. clear B.
  induction F as [|k' s L' Sl' D F IH]; intros Hin; [destruct Hin|destruct Hin as [<-|Hin]]; auto. apply D.
Qed.

Lemma leaves_app h e k : k < length h -> leaves (h ++ e) k = leaves h k.
Proof. intros H. unfold leaves. now rewrite get_app_l. Qed.
Lemma flat_leaves_app h e L : (forall k, In k L -> k < length h) -> flat_map (leaves (h ++ e)) L = flat_map (leaves h) L.
Proof.
  intros H. induction L as [|k L IH]; [reflexivity|]. cbn. rewrite leaves_app by (apply H; now left). f_equal. apply IH.
  intros j Hj. apply H. now right.
Qed.
Lemma leaves_retrained h h' k : retrained h h' -> k < length h -> leaves h' k = leaves h k.
Proof. intros (_ & R) L. specialize (R k L). unfold leaves. inversion R; reflexivity. Qed.
Lemma flat_leaves_retrained h h' L : retrained h h' -> (forall k, In k L -> k < length h) -> flat_map (leaves h') L = flat_map (leaves h) L.
Proof.
  intros R H. induction L as [|k L IH]; [reflexivity|]. cbn. rewrite (leaves_retrained h h') by (auto; apply H; now left). f_equal. apply IH.
  intros j Hj. apply H. now right.
Qed.

Lemma built_app base nl dl h e L Sl : wf_heap (h ++ e) -> built base nl dl h L Sl -> built base nl dl (h ++ e) L Sl.
Proof.
  intros W B. assert (Lt := fun k => built_lt _ _ _ _ _ _ k B). destruct B. constructor; auto.
  - clear -b_desc0. induction b_desc0; constructor; auto using describes_app.
  - now rewrite flat_leaves_app.
  - rewrite flat_leaves_app by auto. intros k Hk. rewrite app_length. apply b_leaf_base0 in Hk. lia.
Qed.
Lemma built_retrained base nl dl h h' L Sl : retrained h h' -> built base nl dl h L Sl -> built base nl dl h' L Sl.
Proof.
  intros R B. assert (Lt := fun k => built_lt _ _ _ _ _ _ k B). destruct B. constructor; auto.
  - now apply (retrained_wf h).
  - clear -b_desc0 R. induction b_desc0; constructor; eauto using describes_retrained.
  - now rewrite (flat_leaves_retrained h h').
  - rewrite (flat_leaves_retrained h h') by auto. destruct R as (-> & _). auto.
Qed.

Lemma nth_app_last {A} (l : list A) a d : nth (length l) (l ++ [a]) d = a.
Proof. rewrite app_nth2 by lia. now rewrite Nat.sub_diag. Qed.

Lemma uniq_snoc_fresh L Sl k s : length Sl = length L -> uniq L Sl -> (forall j, In j L -> j <> k) -> is_X s = false -> uniq (L ++ [k]) (Sl ++ [s]).
Proof.
  intros E U F X a b Ha Hb. rewrite app_length in Ha, Hb. cbn in Ha, Hb.
  assert (C : forall c, c < length L + 1 -> c = length L \/ c < length L) by lia.
  assert (Q0 : nth (length L) (Sl ++ [s]) (SSw []) = s) by (rewrite <- E; apply nth_app_last).
  destruct (C a Ha) as [->|La], (C b Hb) as [->|Lb].
  - tauto.
  - rewrite Q0, nth_app_last, (app_nth1 L), (app_nth1 Sl), X by lia. split.
    + intros Eq. exfalso. apply (F (nth b L 0)); auto. now apply nth_In.
    + intros [Eq|[C' _]]; [lia|discriminate].
  - rewrite Q0, nth_app_last, (app_nth1 L), (app_nth1 Sl) by lia. split.
    + intros Eq. exfalso. apply (F (nth a L 0)); auto. now apply nth_In.
    + intros [Eq|[C' Q]]; [lia|]. rewrite Q, X in C'. discriminate.
  - rewrite !(app_nth1 L), !(app_nth1 Sl) by lia. now apply U.
Qed.

Lemma uniq_snoc_X L Sl k s : length Sl = length L -> uniq L Sl -> is_X s = true ->
  (forall a, a < length L -> (nth a L 0 = k <-> nth a Sl (SSw []) = s)) -> uniq (L ++ [k]) (Sl ++ [s]).
Proof.
  intros E U X F a b Ha Hb. rewrite app_length in Ha, Hb. cbn in Ha, Hb.
  assert (C : forall c, c < length L + 1 -> c = length L \/ c < length L) by lia.
  assert (Q0 : nth (length L) (Sl ++ [s]) (SSw []) = s) by (rewrite <- E; apply nth_app_last).
  destruct (C a Ha) as [->|La], (C b Hb) as [->|Lb].
  - tauto.
  - rewrite Q0, nth_app_last, (app_nth1 L), (app_nth1 Sl), X by lia. specialize (F b Lb). split.
    + intros Eq. right. split; auto. symmetry. now apply F.
    + intros [Eq|[_ Q]]; [lia|]. symmetry. now apply F.
  - rewrite Q0, nth_app_last, (app_nth1 L), (app_nth1 Sl) by lia. specialize (F a La). split.
    + intros Eq. right. apply F in Eq. rewrite Eq. auto.
    + intros [Eq|[C' Q]]; [lia|]. now apply F.
  - rewrite !(app_nth1 L), !(app_nth1 Sl) by lia. now apply U.
Qed.

Lemma Forall2_snoc {A B} (P : A -> B -> Prop) l l' a b : Forall2 P l l' -> P a b -> Forall2 P (l ++ [a]) (l' ++ [b]).
Proof. intros. apply Forall2_app; auto. Qed.

Lemma NoDup_app_disj {A} (l l' : list A) : NoDup l -> NoDup l' -> (forall a, In a l -> ~ In a l') -> NoDup (l ++ l').
Proof.
  induction l as [|a l IH]; intros N N' D; [exact N'|]. inversion N; subst. cbn. constructor.
  - intros H. apply in_app_or in H. destruct H; [auto|]. apply (D a); [now left|auto].
  - apply IH; auto. intros b Hb. apply D. now right.
Qed.

(** Appending a new object, in the extended heap [h ++ e]. *)
Lemma built_snoc_fresh base nl dl h e L Sl k s : built base nl dl h L Sl -> wf_heap (h ++ e) -> dl < length h ->
  describes nl dl (h ++ e) k s -> is_X s = false -> length h <= k ->
  NoDup (leaves (h ++ e) k) -> (forall j, In j (leaves (h ++ e) k) -> length h <= j < length (h ++ e)) ->
  built base nl dl (h ++ e) (L ++ [k]) (Sl ++ [s]).
Proof.
  intros B W Hdl D X Hk N Hj. assert (Lt := fun k => built_lt _ _ _ _ _ _ k B).
  apply (built_app base nl dl h e) in B; auto. destruct B. constructor; auto.
  - intros Hin. apply in_app_or in Hin. destruct Hin as [Hin|[->|[]]]; [auto|discriminate].
  - now apply Forall2_snoc.
  - apply Forall2_snoc; auto. right. lia.
  - apply uniq_snoc_fresh; auto; [symmetry; eapply Forall2_len; eauto|]. intros j Hj' ->. apply Lt in Hj'. lia.
  - rewrite flat_map_app. cbn [flat_map]. rewrite app_nil_r. apply NoDup_app_disj; auto.
    intros a Ha Ha'. apply Hj in Ha'. rewrite flat_leaves_app in Ha by auto.
    assert (a < length h); [|lia].
    clear -Ha Lt b_desc0 b_wf0. apply in_flat_map in Ha. destruct Ha as (j & Hj & Ha). specialize (Lt j Hj).
    unfold leaves in Ha. destruct (get h j) eqn:E; try (now destruct Ha).
    + destruct Ha as [<-|[]]. exact Lt.
    + assert (a < j); [|lia]. apply (b_wf0 j); [rewrite app_length; lia|]. rewrite get_app_l, E by auto. cbn. apply in_or_app. now left.
  - intros j Hin. rewrite flat_map_app in Hin. apply in_app_or in Hin. destruct Hin as [Hin|Hin]; [auto|].
    cbn in Hin. rewrite app_nil_r in Hin. apply Hj in Hin. lia.
Qed.

Lemma built_snoc_X base nl dl h L Sl k s : built base nl dl h L Sl -> describes nl dl h k s -> is_X s = true -> (s = SNl -> nl < dl) ->
  built base nl dl h (L ++ [k]) (Sl ++ [s]).
Proof.
  intros B D X Hnl. pose proof (Forall2_len _ _ _ (b_desc _ _ _ _ _ _ B)) as E.
  assert (M : exists f ps, get h k = OModule f ps) by (destruct D as (_ & D); destruct s; try discriminate; apply D).
  destruct M as (f & ps & Ek).
  assert (Lv : leaves h k = []) by (unfold leaves; now rewrite Ek).
  destruct B. constructor; auto.
  - intros Hin. apply in_app_or in Hin. destruct Hin as [Hin|[->|[]]]; auto.
  - now apply Forall2_snoc.
  - apply Forall2_snoc; auto.
  - apply uniq_snoc_X; auto. intros a Ha.
    assert (Sa : In (nth a Sl (SSw [])) Sl) by (apply nth_In; now rewrite <- E).
    pose proof (Forall2_nth _ _ _ a 0 (SSw []) b_desc0 Ha) as (_ & Da).
    pose proof (Forall2_nth _ _ _ a 0 (SSw []) b_fresh0 Ha) as Fa. cbn beta in Fa.
    destruct D as (_ & D). split.
    + intros Eq. rewrite Eq in Fa, Da. destruct s; try discriminate; destruct D as (-> & _).
      * specialize (Hnl eq_refl).
        destruct (nth a Sl (SSw [])); try (destruct Fa as [Fa|Fa]; [discriminate|lia]); auto. destruct Da as (C & _). lia.
      * destruct (nth a Sl (SSw [])); try (destruct Fa as [Fa|Fa]; [discriminate|lia]); auto. destruct Da as (C & _).
        specialize (b_nl0 Sa). lia.
    + intros Eq. rewrite Eq in Da. destruct s; try discriminate; destruct D as (-> & _), Da as (-> & _); reflexivity.
  - rewrite flat_map_app. cbn. now rewrite Lv, !app_nil_r.
  - rewrite flat_map_app. cbn. rewrite Lv, !app_nil_r. auto.
Qed.

(** ** Construction *)
Definition pw_slot (c : pw_class) (n I O s : nat) (per : option R) : cfg := mkCfg c n I O s 2 per.
Definition layer_slot (lt : string) (n I O s : nat) (per : option R) : slot :=
  if String.eqb lt "continuous" then SP (pw_slot PiecewisePolynomial n I O s per)
  else if String.eqb lt "discontinuous" then SP (pw_slot PiecewiseDiscontinuousPolynomial n I O s per)
  else if String.eqb lt "switch_continuous" then
    SSw [pw_slot PiecewisePolynomial n I O s None; pw_slot PiecewisePolynomial n I O s None]
  else SSw [pw_slot PiecewiseDiscontinuousPolynomial n I O s None; pw_slot PiecewiseDiscontinuousPolynomial n I O s None].

Lemma mlp_layer_spec g a lt n I O s h : refinable_type lt -> 1 <= n -> 1 <= s -> 1 <= I -> 1 <= O -> wf_heap h ->
  exists k e, mlp_layer g a lt (Int n) I O (Some (Int s)) h = Ok (k, h ++ e) /\ wf_heap (h ++ e) /\ length h <= k /\
    (forall nl dl, describes nl dl (h ++ e) k (layer_slot lt n I O s (ma_periodicity a))) /\
    NoDup (leaves (h ++ e) k) /\ (forall j, In j (leaves (h ++ e) k) -> length h <= j < length (h ++ e)).
Proof.
  intros Ht Hn Hs HI HO W.
  assert (P : forall c per, exists k e, k = length h /\ e = [OPiecewise (new_piecewise c n I O s 2 1 per (fun o i => g (length h) [o; i]))] /\
     wf_heap (h ++ e) /\ length h <= k /\
    (forall nl dl, describes nl dl (h ++ e) k (SP (pw_slot c n I O s per))) /\
    NoDup (leaves (h ++ e) k) /\ (forall j, In j (leaves (h ++ e) k) -> length h <= j < length (h ++ e))).
  { intros c per. eexists _, _. split; [reflexivity|]. split; [reflexivity|]. split; [apply wf_snoc; auto; intros j []|]. split; [lia|].
    split; [|unfold leaves; rewrite get_last; split; [repeat constructor; intros []|]].
    - intros nl dl. split; [rewrite app_length; cbn; lia|]. eexists. rewrite get_last. split; [reflexivity|].
      split; [now apply new_held|reflexivity].
    - intros j [<-|[]]. rewrite app_length. cbn. lia. }
  assert (Sw : forall c, exists k e,
     e = [OPiecewise (new_piecewise c n I O s 2 1 None (fun o i => g (length h) [o; i]));
          OPiecewise (new_piecewise c n I O s 2 1 None (fun o i => g (S (length h)) [o; i]));
          OSwitch I O [length h; S (length h)] None] /\ k = S (S (length h)) /\
     wf_heap (h ++ e) /\ length h <= k /\
    (forall nl dl, describes nl dl (h ++ e) k (SSw [pw_slot c n I O s None; pw_slot c n I O s None])) /\
    NoDup (leaves (h ++ e) k) /\ (forall j, In j (leaves (h ++ e) k) -> length h <= j < length (h ++ e))).
  { intros c. eexists _, _. split; [reflexivity|]. split; [reflexivity|].
    match goal with |- context [h ++ [?x; ?y; ?z]] => set (p1 := x); set (p2 := y); set (sw := z) end.
    assert (G : forall i, get (h ++ [p1; p2; sw]) (length h + i) = get [p1; p2; sw] i) by (intros; apply get_app_r).
    assert (G0 := G 0). assert (G1 := G 1). assert (G2 := G 2). rewrite Nat.add_0_r in G0. rewrite Nat.add_1_r in G1.
    replace (length h + 2) with (S (S (length h))) in G2 by lia. cbn in G0, G1, G2.
    split; [|split; [lia|]].
    { replace (h ++ [p1; p2; sw]) with (((h ++ [p1]) ++ [p2]) ++ [sw]) by (now rewrite <- !app_assoc).
      apply wf_snoc; [apply wf_snoc; [apply wf_snoc; auto; intros j []|intros j []]|].
      rewrite !app_length. cbn. intros j [<-|[<-|[]]]; lia. }
    split; [|unfold leaves; rewrite G2; cbn; split; [repeat constructor; cbn; intuition lia|]].
    - intros nl dl. split; [rewrite app_length; cbn; lia|]. exists I, O, [length h; S (length h)].
      split; [exact G2|]. repeat constructor; eexists; rewrite ?G0, ?G1; (split; [reflexivity|]);
        (split; [now apply new_held|reflexivity]).
    - rewrite app_length. cbn. intros j [<-|[<-|[]]]; lia. }
  unfold mlp_layer, high_order_fc_layers.
  destruct Ht as [->|[->|[->| ->]]]; cbn [String.eqb Ascii.eqb Bool.eqb].
  - destruct (P PiecewisePolynomial (ma_periodicity a)) as (k & e & -> & -> & H). eexists _, _. split; [reflexivity|exact H].
  - destruct (P PiecewiseDiscontinuousPolynomial (ma_periodicity a)) as (k & e & -> & -> & H). eexists _, _. split; [reflexivity|exact H].
  - destruct (Sw PiecewisePolynomial) as (k & e & -> & -> & H). eexists _, _. split; [|exact H].
    cbn. unfold alloc, mthen, mret. cbn. rewrite !app_length. cbn. rewrite !Nat.add_1_r. now rewrite <- !app_assoc.
  - destruct (Sw PiecewiseDiscontinuousPolynomial) as (k & e & -> & -> & H). eexists _, _. split; [|exact H].
    cbn. unfold alloc, mthen, mret. cbn. rewrite !app_length. cbn. rewrite !Nat.add_1_r. now rewrite <- !app_assoc.
Qed.

Definition between_slots (nm : option norm_class) (nlo : option nat) : list slot :=
  (match nm with Some (f, _) => [SM f] | None => [] end) ++ (match nlo with Some _ => [SNl] | None => [] end).
Definition drop_slots (a : mlp_args) : list slot := if Rlt_dec 0 (ma_dropout a) then [SDrop] else [].

Definition env (nl dl : nat) (nlo : option nat) (h : heap) : Prop :=
  dl < length h /\ get h dl = OModule (fun x => Ok x) [] /\
  forall k, nlo = Some k -> k = nl /\ nl < dl /\ exists f ps, get h nl = OModule f ps.
Lemma env_app nl dl nlo h e : env nl dl nlo h -> env nl dl nlo (h ++ e).
Proof.
  intros (L & D & N). split; [rewrite app_length; lia|]. rewrite get_app_l by auto. split; auto.
  intros k Hk. destruct (N k Hk) as (-> & Lt & M). rewrite get_app_l by lia. auto.
Qed.

Lemma between_spec base nl dl nm nlo h L Sl : built base nl dl h L Sl -> env nl dl nlo h ->
  exists b e, between nm nlo h = Ok (b, h ++ e) /\ built base nl dl (h ++ e) (L ++ b) (Sl ++ between_slots nm nlo).
Proof.
  intros B E. unfold between, between_slots.
  assert (S1 : exists b e, (match nm with Some (f, ps) => k <~ alloc (fun _ => OModule f ps) ;; mret [k] | None => mret [] end) h = Ok (b, h ++ e) /\
     built base nl dl (h ++ e) (L ++ b) (Sl ++ match nm with Some (f, _) => [SM f] | None => [] end)).
  { destruct nm as [[f ps]|].
    - exists [length h], [OModule f ps]. split; [reflexivity|]. destruct E as (Ld & _).
      apply (built_snoc_fresh _ _ _ h); auto.
      + apply wf_snoc; [apply B|intros j []].
      + split; [rewrite app_length; cbn; lia|]. exists ps. apply get_last.
      + unfold leaves. rewrite get_last. constructor.
      + unfold leaves. rewrite get_last. intros j [].
    - exists [], []. split; [cbn; now rewrite app_nil_r|]. now rewrite !app_nil_r. }
  destruct S1 as (b & e & Eq & B1). apply (env_app _ _ _ _ e) in E.
  unfold mthen at 1. rewrite Eq. cbn [mret]. eexists _, e. split; [reflexivity|].
  destruct nlo as [k|].
  - destruct E as (Ld & _ & N). destruct (N k eq_refl) as (-> & Lt & f & ps & G).
    rewrite !app_assoc. apply built_snoc_X; auto. split; [lia|]. split; eauto.
  - now rewrite !app_nil_r.
Qed.

Lemma dropout_spec base nl dl nlo a h L Sl : built base nl dl h L Sl -> env nl dl nlo h ->
  built base nl dl h (L ++ dropout_list a dl) (Sl ++ drop_slots a).
Proof.
  intros B (Ld & G & _). unfold dropout_list, drop_slots. destruct Rlt_dec.
  - apply built_snoc_X; auto; [|discriminate]. split; [lia|]. split; eauto.
  - now rewrite !app_nil_r.
Qed.

Lemma layer_slot_X lt n I O s per : is_X (layer_slot lt n I O s per) = false.
Proof. unfold layer_slot. repeat match goal with |- context [if ?c then _ else _] => destruct c end; reflexivity. Qed.

Lemma layer_step base nl dl nlo g a lt n I O s h L Sl : built base nl dl h L Sl -> env nl dl nlo h ->
  refinable_type lt -> 1 <= n -> 1 <= s -> 1 <= I -> 1 <= O ->
  exists k e, mlp_layer g a lt (Int n) I O (Some (Int s)) h = Ok (k, h ++ e) /\
    built base nl dl (h ++ e) (L ++ [k]) (Sl ++ [layer_slot lt n I O s (ma_periodicity a)]).
Proof.
  intros B E Ht Hn Hs HI HO. destruct (mlp_layer_spec g a lt n I O s h) as (k & e & Eq & W & Lk & D & N & Lv); auto; [apply B|].
  exists k, e. split; auto. apply (built_snoc_fresh _ _ _ h); auto using layer_slot_X. apply E.
Qed.

Definition hidden_slots (a : mlp_args) (nh sh : nat) : list slot :=
  between_slots (ma_normalization a) (ma_non_linearity a) ++ drop_slots a ++
  [layer_slot (ma_layer_type a) nh (ma_hidden_width a) (ma_hidden_width a) sh (ma_periodicity a)].
Definition mlp_slots (a : mlp_args) (ni nh no si sh so : nat) : list slot :=
  [layer_slot (or_string (ma_layer_type_in a) (ma_layer_type a)) ni (ma_in_width a) (ma_hidden_width a) si (ma_periodicity a)] ++
  concat (repeat (hidden_slots a nh sh) (ma_hidden_layers a)) ++
  between_slots (ma_normalization a) (ma_non_linearity a) ++ drop_slots a ++
  [layer_slot (ma_layer_type a) no (ma_hidden_width a) (ma_out_width a) so (ma_periodicity a)].

Lemma hidden_spec base nl dl g a ni nh no si sh so : plain_mlp a ni nh no si sh so ->
  forall n i h L Sl, built base nl dl h L Sl -> env nl dl (ma_non_linearity a) h ->
  exists L' e, mlp_hidden g a dl n i L h = Ok (L', h ++ e) /\
    built base nl dl (h ++ e) L' (Sl ++ concat (repeat (hidden_slots a nh sh) n)).
Proof.
  intros P. induction n as [|n IH]; intros i h L Sl B E.
  - exists L, []. cbn. rewrite !app_nil_r. split; auto.
  - cbn [mlp_hidden]. destruct (between_spec base nl dl (ma_normalization a) (ma_non_linearity a) h L Sl B E) as (b & e1 & E1 & B1).
    apply (env_app _ _ _ _ e1) in E. unfold mthen at 1. rewrite E1.
    apply (dropout_spec _ _ _ (ma_non_linearity a) a) in B1; [|exact E].
    rewrite (pm_n_hidden _ _ _ _ _ _ _ P), (pm_s_hidden _ _ _ _ _ _ _ P), (pm_resnet _ _ _ _ _ _ _ P). cbn [andb].
    destruct P as [Pt _ _ _ _ _ _ _ Ps Pw _ _].
    destruct (layer_step base nl dl _ g a (ma_layer_type a) nh (ma_hidden_width a) (ma_hidden_width a) sh _ _ _ B1 E) as (k & e2 & E2 & B2);
      auto; try tauto.
    apply (env_app _ _ _ _ e2) in E. cbn zeta. unfold mthen at 1. rewrite E2. unfold mthen at 1. cbn [mret].
    rewrite <- !app_assoc in B2. rewrite <- !app_assoc in E.
    destruct (IH (S i) (h ++ e1 ++ e2) (L ++ b ++ dropout_list a dl ++ [k]) _ B2 E) as (L' & e3 & E3 & B3).
    exists L', (e1 ++ e2 ++ e3). rewrite <- !app_assoc. split; [rewrite E3; now rewrite <- !app_assoc|].
    rewrite <- !app_assoc in B3. cbn [repeat concat]. unfold hidden_slots at 1. rewrite <- !app_assoc. exact B3.
Qed.

Lemma mlp_spec g a ni nh no si sh so h nl : plain_mlp a ni nh no si sh so -> wf_heap h ->
  (forall k, ma_non_linearity a = Some k -> k = nl /\ nl < length h /\ exists f ps, get h nl = OModule f ps) ->
  exists net e dl k1 k2 m L, HighOrderMLP g a h = Ok (net, h ++ e) /\ get (h ++ e) net = OMLP dl k1 k2 m /\
    get (h ++ e) m = OSequential L /\ built (length h) nl dl (h ++ e) L (mlp_slots a ni nh no si sh so) /\
    env nl dl (ma_non_linearity a) (h ++ e) /\ net < length (h ++ e) /\ m < length (h ++ e) /\ ~ In m L /\ length h <= dl.
Proof.
  intros P W N. unfold HighOrderMLP. pose proof (pm_dropout _ _ _ _ _ _ _ P) as Pd.
  destruct Rlt_dec as [C|_]; [exfalso; lra|]. destruct Rlt_dec as [C|_]; [exfalso; lra|].
  unfold mthen at 1. cbn [alloc].
  set (h1 := h ++ [OModule (fun x => Ok x) []]). set (dl := length h).
  assert (W1 : wf_heap h1) by (apply wf_snoc; auto; intros j []).
  assert (E : env nl dl (ma_non_linearity a) h1).
  { split; [unfold h1; rewrite app_length; cbn; lia|]. split; [apply get_last|]. intros k Hk. destruct (N k Hk) as (-> & Lt & M).
    repeat split; auto. unfold h1. now rewrite get_app_l. }
  assert (B0 : built (length h) nl dl h1 [] []).
  { apply mkBuilt; auto.
    - intros [].
    - intros x y Hx. cbn in Hx. lia.
    - constructor.
    - intros k []. }
  rewrite (pm_n_in _ _ _ _ _ _ _ P), (pm_s_in _ _ _ _ _ _ _ P).
  pose proof (pm_sizes _ _ _ _ _ _ _ P) as Ps. pose proof (pm_widths _ _ _ _ _ _ _ P) as Pw.
  pose proof (pm_type _ _ _ _ _ _ _ P) as Pt. pose proof (pm_type_in _ _ _ _ _ _ _ P) as Pti.
  edestruct (layer_step _ _ _ _ g a (or_string (ma_layer_type_in a) (ma_layer_type a)) ni (ma_in_width a) (ma_hidden_width a) si _ _ _ B0 E)
    as (k1 & e1 & E1 & B1); auto; try tauto.
  apply (env_app _ _ _ _ e1) in E. unfold mthen at 1. rewrite E1. cbn [app] in B1.
  destruct (hidden_spec _ _ _ g a _ _ _ _ _ _ P (ma_hidden_layers a) 0 _ _ _ B1 E) as (ls & e2 & E2 & B2).
  apply (env_app _ _ _ _ e2) in E. unfold mthen at 1. rewrite E2.
  destruct (between_spec _ _ _ (ma_normalization a) (ma_non_linearity a) _ _ _ B2 E) as (b & e3 & E3 & B3).
  apply (env_app _ _ _ _ e3) in E. unfold mthen at 1. rewrite E3.
  apply (dropout_spec _ _ _ (ma_non_linearity a) a) in B3; [|exact E].
  rewrite (pm_n_out _ _ _ _ _ _ _ P), (pm_s_out _ _ _ _ _ _ _ P).
  edestruct (layer_step _ _ _ _ g a (ma_layer_type a) no (ma_hidden_width a) (ma_out_width a) so _ _ _ B3 E)
    as (k2 & e4 & E4 & B4); auto; try tauto.
  apply (env_app _ _ _ _ e4) in E. unfold mthen at 1. rewrite E4.
  set (h5 := (((h1 ++ e1) ++ e2) ++ e3) ++ e4) in *.
  rewrite <- !app_assoc in B4. set (L := ls ++ b ++ dropout_list a dl ++ [k2]) in *.
  unfold mthen at 1. cbn [alloc].
  set (m := length h5).
  assert (Lt := fun k => built_lt _ _ _ _ _ _ k B4).
  assert (W6 : wf_heap (h5 ++ [OSequential L])) by (apply wf_snoc; [apply B4|exact Lt]).
  assert (HI : forall k e, In k [dl; k1; k2] -> k < length (h5 ++ e)).
  { intros k e Hk. rewrite app_length. assert (k < length h5); [|lia]. destruct Hk as [<-|[<-|[<-|[]]]].
    - apply E.
    - unfold h5. pose proof (built_lt _ _ _ _ _ _ k1 B1 (or_introl eq_refl)). rewrite !app_length in *. lia.
    - apply Lt. unfold L. rewrite !app_assoc. apply in_or_app. right. now left. }
  assert (W7 : wf_heap ((h5 ++ [OSequential L]) ++ [OMLP dl k1 k2 m])).
  { apply wf_snoc; auto. intros j Hj. cbn in Hj.
    assert (Hj' : In j [dl; k1; k2] \/ j = m) by (cbn; intuition auto). destruct Hj' as [Hj'| ->]; [now apply HI|].
    rewrite app_length. cbn. unfold m. lia. }
  exists (length (h5 ++ [OSequential L])), ([OModule (fun x => Ok x) []] ++ e1 ++ e2 ++ e3 ++ e4 ++ [OSequential L] ++ [OMLP dl k1 k2 m]), dl, k1, k2, m, L.
  assert (EqH : h ++ [OModule (fun x => Ok x) []] ++ e1 ++ e2 ++ e3 ++ e4 ++ [OSequential L] ++ [OMLP dl k1 k2 m] = (h5 ++ [OSequential L]) ++ [OMLP dl k1 k2 m]).
  { unfold h5, h1. now rewrite <- !app_assoc. }
  rewrite EqH. split; [reflexivity|]. split; [apply get_last|].
  split; [rewrite get_app_l by (rewrite app_length; cbn; unfold m; lia); apply get_last|].
  split; [|split; [|split; [|split; [|split]]]].
  - rewrite <- app_assoc. apply built_app; [rewrite app_assoc; exact W7|]. unfold mlp_slots. exact B4.
  - now do 2 apply env_app.
  - rewrite !app_length. cbn. lia.
  - rewrite !app_length. cbn. unfold m. lia.
  - intros C. apply Lt in C. unfold m in C. lia.
  - auto.
Qed.
