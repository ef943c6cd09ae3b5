(** * The sparse optimizer (C31, C32). *)
From Coq Require Import Reals ZArith List Lia Lra Psatz.
From Verif Require Import Spec Tensor Utils LagrangePolynomial Basis PolynomialLayers SparseLion Observe
  SumFacts TensorFacts LagrangeFacts LayerFacts SegmentFacts LayerProofs.
Import ListNotations.
Local Open Scope R_scope.

(** ** C31 *)
Lemma mapi_nth {A B} (f : nat -> A -> B) l : forall i k, nth_error (mapi f i l) k = option_map (f (i + k)%nat) (nth_error l k).
Proof.
  induction l; intros i k; destruct k; cbn; auto; [now rewrite Nat.add_0_r|]. rewrite IHl. f_equal. f_equal. lia.
Qed.
Lemma sgn_cases x : sgn x = 1 \/ sgn x = -1 \/ sgn x = 0.
Proof. unfold sgn. destruct (Rlt_dec 0 x); auto. destruct (Rlt_dec x 0); auto. Qed.

(** Momentum of a parameter at an entry; zero before the first update. *)
Definition momentum (p : param) (ix : index) : R := match pa_exp_avg p with Some e => at_ e ix | None => 0 end.

(** One step on one parameter: [p] and [p'] before and after, [gr] its gradient. *)
Definition lion_moves (g : group) (gr : option (tensor R)) (p p' : param) : Prop :=
  shape (pa_data p') = shape (pa_data p) /\
  match gr with
  | None => p' = p
  | Some gr => forall ix,
      (at_ gr ix = 0 -> at_ (pa_data p') ix = at_ (pa_data p) ix /\ momentum p' ix = momentum p ix) /\
      (at_ gr ix <> 0 ->
         (exists u, (u = 1 \/ u = -1 \/ u = 0) /\ at_ (pa_data p') ix = at_ (pa_data p) ix - g_lr g * u /\
            let d := g_beta1 g * momentum p ix + (1 - g_beta1 g) * at_ gr ix in
            (0 < d -> u = 1) /\ (d < 0 -> u = -1) /\ (d = 0 -> u = 0)) /\
         momentum p' ix = g_beta2 g * momentum p ix + (1 - g_beta2 g) * at_ gr ix)
  end.

Lemma step_param_moves g p gr : lion_moves g gr p (step_param g p gr).
Proof.
  unfold lion_moves, step_param. destruct gr as [gr|]; [|split; auto].
  cbn. split; auto. intros ix. unfold momentum. cbn.
  set (m := match pa_exp_avg p with Some e => at_ e ix | None => 0 end).
  assert (E : at_ (match pa_exp_avg p with Some e => e | None => tmap (fun _ : R => 0) (pa_data p) end) ix = m)
    by (unfold m; destruct (pa_exp_avg p); reflexivity).
  rewrite E. destruct (Req_EM_T (at_ gr ix) 0) as [Z|Z]; split; intros Q; try contradiction; auto.
  split; [|ring]. exists (sgn (m * g_beta1 g + (1 - g_beta1 g) * at_ gr ix)). split; [apply sgn_cases|]. split; [ring|].
  replace (m * g_beta1 g) with (g_beta1 g * m) by ring. unfold sgn.
  destruct (Rlt_dec 0 _); [|destruct (Rlt_dec _ 0)]; repeat split; intros; lra.
Qed.

Theorem C31_step : forall opt grads gi pi g p,
  nth_error opt gi = Some g -> nth_error (g_params g) pi = Some p ->
  exists g' p', nth_error (SparseLion_step opt grads) gi = Some g' /\ nth_error (g_params g') pi = Some p' /\
    g_lr g' = g_lr g /\ g_beta1 g' = g_beta1 g /\ g_beta2 g' = g_beta2 g /\
    lion_moves g (grads gi pi) p p'.
Proof.
  intros opt grads gi pi g p Hg Hp. unfold SparseLion_step.
  rewrite mapi_nth, Hg. cbn [option_map]. eexists. exists (step_param g p (grads gi pi)). split; [reflexivity|].
  cbn [g_params g_lr g_beta1 g_beta2]. rewrite mapi_nth, Hp. cbn [option_map]. do 4 (split; [reflexivity|]).
  apply step_param_moves.
Qed.
Print Assumptions C31_step.

(** A whole history of gradients. *)
Fixpoint lion_run (opt : list group) (hist : list (nat -> nat -> option (tensor R))) : list group :=
  match hist with [] => opt | gr :: hist => lion_run (SparseLion_step opt gr) hist end.

Lemma lion_run_bound opt hist : forall gi pi g p ix, nth_error opt gi = Some g -> nth_error (g_params g) pi = Some p -> 0 <= g_lr g ->
  exists g' p', nth_error (lion_run opt hist) gi = Some g' /\ nth_error (g_params g') pi = Some p' /\
    g_lr g' = g_lr g /\ g_beta1 g' = g_beta1 g /\ g_beta2 g' = g_beta2 g /\ shape (pa_data p') = shape (pa_data p) /\
    Rabs (at_ (pa_data p') ix - at_ (pa_data p) ix) <= INR (length hist) * g_lr g.
Proof.
  revert opt. induction hist as [|gr hist IH]; intros opt gi pi g p ix Hg Hp Hl.
  - exists g, p. cbn. do 6 (split; [auto|]). unfold Rminus. rewrite Rplus_opp_r, Rabs_R0. lra.
  - destruct (C31_step opt gr gi pi g p Hg Hp) as (g1 & p1 & Hg1 & Hp1 & L1 & B1 & B2 & Sh & M).
    destruct (IH _ gi pi g1 p1 ix Hg1 Hp1 ltac:(lra)) as (g' & p' & Hg' & Hp' & L' & B1' & B2' & Sh' & D).
    exists g', p'. cbn [lion_run]. do 2 (split; [auto|]). do 4 (split; [congruence|]).
    cbn [length]. rewrite S_INR. rewrite L1 in D.
    assert (Rabs (at_ (pa_data p1) ix - at_ (pa_data p) ix) <= g_lr g).
    { destruct (gr gi pi) as [t|]; [|subst p1; unfold Rminus; rewrite Rplus_opp_r, Rabs_R0; lra].
      destruct (M ix) as [M0 M1]. destruct (Req_dec (at_ t ix) 0) as [Z|Z].
      - destruct (M0 Z) as [-> _]. unfold Rminus; rewrite Rplus_opp_r, Rabs_R0; lra.
      - destruct (M1 Z) as [(u & Hu & -> & _) _]. unfold Rabs. destruct (Rcase_abs _); destruct Hu as [->|[->| ->]]; lra. }
    replace (at_ (pa_data p') ix - at_ (pa_data p) ix) with ((at_ (pa_data p') ix - at_ (pa_data p1) ix) + (at_ (pa_data p1) ix - at_ (pa_data p) ix)) by ring.
    eapply Rle_trans; [apply Rabs_triang|]. lra.
Qed.

(** After k steps no coordinate has moved by more than k*lr. *)
Theorem C31_travel_bound : forall params lr b1 b2 wd opt hist pi p ix,
  new_SparseLion params lr b1 b2 wd = Ok opt -> nth_error params pi = Some p ->
  exists g p', nth_error (lion_run opt hist) 0 = Some g /\ nth_error (g_params g) pi = Some p' /\
    shape (pa_data p') = shape p /\ Rabs (at_ (pa_data p') ix - at_ p ix) <= INR (length hist) * lr.
Proof.
  intros params lr b1 b2 wd opt hist pi p ix H Hp. unfold new_SparseLion in H. destruct (Rlt_dec 0 lr); [|discriminate].
  destruct (in_unit b1 && in_unit b2)%bool; [|discriminate]. injection H as <-.
  destruct (lion_run_bound [mkGroup lr b1 b2 wd (map (fun p => mkParam p None) params)] hist 0 pi _ (mkParam p None) ix eq_refl) as (g' & p' & A & B & _ & _ & _ & C & D).
  - cbn. rewrite nth_error_map, Hp. reflexivity.
  - cbn; lra.
  - exists g', p'. auto.
Qed.
Print Assumptions C31_travel_bound.

(** Momentum never exceeds the largest gradient seen. *)
Lemma momentum_step g p gr ix G : 0 <= g_beta2 g <= 1 -> 0 <= G -> Rabs (momentum p ix) <= G ->
  (forall t, gr = Some t -> Rabs (at_ t ix) <= G) -> Rabs (momentum (step_param g p gr) ix) <= G.
Proof.
  intros Hb HG Hm Hg. destruct (step_param_moves g p gr) as [_ M]. destruct gr as [t|]; [|rewrite M; auto].
  destruct (M ix) as [M0 M1]. destruct (Req_dec (at_ t ix) 0) as [Z|Z]; [destruct (M0 Z) as [_ ->]; auto|].
  destruct (M1 Z) as [_ ->]. specialize (Hg t eq_refl). apply Rabs_le.
  unfold Rabs in Hm, Hg. destruct (Rcase_abs _), (Rcase_abs _); nra.
Qed.
Theorem C31_momentum_bounded : forall params lr b1 b2 wd opt hist pi p ix G,
  new_SparseLion params lr b1 b2 wd = Ok opt -> nth_error params pi = Some p -> 0 <= G ->
  (forall grads t, In grads hist -> grads 0%nat pi = Some t -> Rabs (at_ t ix) <= G) ->
  exists g p', nth_error (lion_run opt hist) 0 = Some g /\ nth_error (g_params g) pi = Some p' /\ Rabs (momentum p' ix) <= G.
Proof.
  intros params lr b1 b2 wd opt hist pi p ix G H Hp HG Hh. unfold new_SparseLion in H. destruct (Rlt_dec 0 lr); [|discriminate].
  destruct (in_unit b1) eqn:_U; cbn [andb] in H; [|discriminate]. destruct (in_unit b2) eqn:U; [|discriminate]. injection H as <-.
  assert (Hb : 0 <= b2 <= 1) by (unfold in_unit in U; destruct (Rle_dec 0 b2), (Rle_dec b2 1); try discriminate; lra).
  assert (R : forall hist opt g q, nth_error opt 0 = Some g -> g_beta2 g = b2 -> nth_error (g_params g) pi = Some q -> Rabs (momentum q ix) <= G ->
     (forall grads t, In grads hist -> grads 0%nat pi = Some t -> Rabs (at_ t ix) <= G) ->
     exists g p', nth_error (lion_run opt hist) 0 = Some g /\ nth_error (g_params g) pi = Some p' /\ Rabs (momentum p' ix) <= G).
  { clear - HG Hb. induction hist as [|gr hist IH]; intros opt g q Hg B Hq Hm Hh; [exists g, q; auto|].
    cbn [lion_run]. eapply (IH _ _ (step_param g q (gr 0%nat pi))).
    - unfold SparseLion_step. rewrite mapi_nth, Hg. reflexivity.
    - exact B.
    - cbn [g_params]. rewrite mapi_nth, Hq. reflexivity.
    - apply momentum_step; auto; [lra|]. intros t Ht. eapply Hh; [now left|exact Ht].
    - intros grads t Hin. apply Hh. now right. }
  eapply R; [reflexivity|reflexivity|cbn; rewrite nth_error_map, Hp; reflexivity| |auto].
  unfold momentum. cbn. rewrite Rabs_R0. auto.
Qed.
Print Assumptions C31_momentum_bounded.

(** Weight decay has no effect at all. *)
Theorem C31_weight_decay_ignored : forall params lr b1 b2 wd wd' opt opt' hist,
  new_SparseLion params lr b1 b2 wd = Ok opt -> new_SparseLion params lr b1 b2 wd' = Ok opt' ->
  map g_params (lion_run opt hist) = map g_params (lion_run opt' hist).
Proof.
  intros params lr b1 b2 wd wd' opt opt' hist H H'. unfold new_SparseLion in *. destruct (Rlt_dec 0 lr); [|discriminate].
  destruct (in_unit b1 && in_unit b2)%bool; [|discriminate]. injection H as <-. injection H' as <-.
  generalize (map (fun p => mkParam p None) params). revert hist.
  induction hist as [|gr hist IH]; intros ps; [reflexivity|]. cbn [lion_run]. unfold SparseLion_step. cbn [mapi].
  apply (IH (mapi (fun j p => step_param (mkGroup lr b1 b2 wd ps) p (gr 0%nat j)) 0 ps)).
Qed.
Print Assumptions C31_weight_decay_ignored.

Theorem C31_bad_settings_rejected : forall params lr b1 b2 wd,
  (exists opt, new_SparseLion params lr b1 b2 wd = Ok opt) <-> (0 < lr /\ 0 <= b1 <= 1 /\ 0 <= b2 <= 1).
Proof.
  intros. unfold new_SparseLion, in_unit. destruct (Rlt_dec 0 lr);
  destruct (Rle_dec 0 b1), (Rle_dec b1 1), (Rle_dec 0 b2), (Rle_dec b2 1); cbn [andb]; split;
  try (intros [opt E]; discriminate); try (intros; exfalso; lra); intros; [repeat split; lra|eexists; reflexivity].
Qed.
Print Assumptions C31_bad_settings_rejected.

(** A parameter of two entries, gradient (0, -3): the first stays, the second moves by lr. *)
Example C31_example : exists opt g p, new_SparseLion [mkT [2%nat] (fun _ => 1)] (1/10) (1/2) (1/2) 5 = Ok opt /\
  nth_error (lion_run opt [fun _ _ => Some (mkT [2%nat] (fun ix => match ix with [0%nat] => 0 | _ => -3 end))]) 0 = Some g /\
  nth_error (g_params g) 0 = Some p /\ at_ (pa_data p) [0%nat] = 1 /\ at_ (pa_data p) [1%nat] = 11/10.
Proof.
  unfold new_SparseLion, in_unit. destruct (Rlt_dec 0 (1/10)); [|lra].
  destruct (Rle_dec 0 (1/2)); [|lra]. destruct (Rle_dec (1/2) 1); [|lra]. cbn [andb].
  eexists; eexists; eexists. split; [reflexivity|]. split; [reflexivity|]. split; [reflexivity|]. cbn. unfold sgn.
  destruct (Req_EM_T 0 0); [|lra]. destruct (Req_EM_T (-3) 0); [lra|]. split; [reflexivity|].
  destruct (Rlt_dec 0 _); [lra|]. destruct (Rlt_dec _ 0); lra.
Qed.

(** ** C32 *)

(** The layer output is affine in each single weight, so gradients exist. *)
Lemma combine_affine al m i' (a : nat -> R) d : exists A C, forall t,
  combine_links al m (fun i => a i + t * (if Nat.eqb i i' then d else 0)) = A * t + C.
Proof.
  assert (S : exists A C, forall t, rsum m (fun i => a i + t * (if Nat.eqb i i' then d else 0)) = A * t + C).
  { induction m; [exists 0, 0; intros; cbn; lra|]. destruct IHm as (A & C & E).
    exists (A + if Nat.eqb m i' then d else 0), (C + a m). intros t. cbn [rsum]. rewrite E. ring. }
  assert (P : exists A C, forall t, rprod m (fun i => a i + t * (if Nat.eqb i i' then d else 0) + 1) = A * t + C).
  { clear S. destruct (Nat.lt_ge_cases i' m) as [L|L].
    - assert (Q : forall k, (k <= i')%nat -> exists c, forall t, rprod k (fun i => a i + t * (if Nat.eqb i i' then d else 0) + 1) = c).
      { induction k; intros Hk; [exists 1; reflexivity|]. destruct IHk as (c & E); [lia|].
        exists (c * (a k + 1)). intros t. cbn [rprod]. rewrite E. destruct (Nat.eqb_spec k i'); [lia|]. ring. }
      destruct (Q i' (le_n _)) as (c & E).
      assert (Q2 : forall k, exists A C, forall t, rprod (S i' + k) (fun i => a i + t * (if Nat.eqb i i' then d else 0) + 1) = A * t + C).
      { induction k.
        - rewrite Nat.add_0_r. exists (c * d), (c * (a i' + 1)). intros t. cbn [rprod]. rewrite E, Nat.eqb_refl. ring.
        - destruct IHk as (A & C & E'). exists (A * (a (S i' + k)%nat + 1)), (C * (a (S i' + k)%nat + 1)). intros t.
          rewrite Nat.add_succ_r. cbn [rprod]. rewrite E'. destruct (Nat.eqb_spec (S i' + k) i'); [lia|]. ring. }
      destruct (Q2 (m - S i')%nat) as (A & C & E'). exists A, C. intros t. rewrite <- E'. f_equal. lia.
    - exists 0. assert (Q : exists c, forall t, rprod m (fun i => a i + t * (if Nat.eqb i i' then d else 0) + 1) = c).
      { induction m; [exists 1; reflexivity|]. destruct IHm as (c & E); [lia|].
        exists (c * (a m + 1)). intros t. cbn [rprod]. rewrite E. destruct (Nat.eqb_spec m i'); [lia|]. ring. }
      destruct Q as (c & E). exists c. intros t. rewrite E. ring. }
  unfold combine_links. destruct al as [al|]; auto.
  destruct S as (A & C & E), P as (A' & C' & E'). exists (A' + (1 - al) * A), (C' - 1 + (1 - al) * C). intros t. rewrite E, E'. ring.
Qed.

Lemma layer_affine l v o o' i' p : held l -> (o < pw_out l)%nat ->
  exists A C, forall t, layer_out (with_w l (upd (pw_w l) [o'; i'; p] t)) v o = A * t + C.
Proof.
  intros H Ho.
  set (d := fun i => if Nat.eqb o o' then interp (pw_n l) 2 (fun k => delta_at (weight_pos (pw_cls l) (pw_n l) (Z.to_nat (which_segment l (v i))) k) p)
         (x_local l (apply_periodicity (pw_periodicity l) (v i)) (which_segment l (v i))) else 0).
  destruct (combine_affine (alpha_of (pw_cls l)) (pw_in l) i'
     (fun i => link l o i (v i) - at_ (pw_w l) [o'; i'; p] * (if Nat.eqb i i' then d i' else 0)) (d i')) as (A & C & E).
  exists A, C. intros t. rewrite layer_out_eq; [|now apply with_w_held|exact Ho]. cbn [pw_cls pw_in with_w].
  rewrite <- E. apply combine_ext. intros i Hi. rewrite link_upd by auto.
  unfold d. destruct (Nat.eqb_spec i i') as [->|]; destruct (Nat.eqb o o'); cbn [andb]; ring.
Qed.

Lemma rsum_affine n (F : nat -> R -> R) : (forall i, (i < n)%nat -> exists A C, forall t, F i t = A * t + C) ->
  exists A C, forall t, rsum n (fun i => F i t) = A * t + C.
Proof.
  induction n; intros H; [exists 0, 0; intros; cbn; lra|]. destruct IHn as (A & C & E); [intros; apply H; lia|].
  destruct (H n (le_n _)) as (A' & C' & E'). exists (A + A'), (C + C'). intros t. cbn [rsum]. rewrite E, E'. ring.
Qed.

Theorem C32_gradient_exists : forall l x B delta, held l -> exists g, is_gradient l x B delta g.
Proof.
  intros l x B delta H.
  set (F := fun o i p t => rsum B (fun b => rsum (pw_out l) (fun o' =>
         delta b o' * layer_out (with_w l (upd (pw_w l) [o; i; p] t)) (row x b) o'))).
  assert (Q : forall o i p, exists A C, forall t, F o i p t = A * t + C).
  { intros o i p.
    apply (rsum_affine B (fun b t => rsum (pw_out l) (fun o' => delta b o' * layer_out (with_w l (upd (pw_w l) [o; i; p] t)) (row x b) o'))).
    intros b Hb. apply (rsum_affine (pw_out l) (fun o' t => delta b o' * layer_out (with_w l (upd (pw_w l) [o; i; p] t)) (row x b) o')).
    intros o' Ho'. destruct (layer_affine l (row x b) o' o i p H Ho') as (A & C & E). exists (delta b o' * A), (delta b o' * C).
    intros t. rewrite E. ring. }
  exists (mkT (shape (pw_w l)) (fun ix => match ix with [o; i; p] => F o i p 1 - F o i p 0 | _ => 0 end)).
  split; [reflexivity|]. intros o i p _. destruct (Q o i p) as (A & C & E). cbn [at_].
  apply (derivable_affine _ C). intros t. change (F o i p t = (F o i p 1 - F o i p 0) * t + C). rewrite !E. ring.
Qed.
Print Assumptions C32_gradient_exists.

(** A weight outside every active segment of the batch has gradient zero, whatever the loss. *)
Theorem C32_gradient_zero : forall l x B delta g o i p, held l -> is_gradient l x B delta g ->
  valid (shape (pw_w l)) [o; i; p] ->
  (forall b k, (b < B)%nat -> (k < pw_n l)%nat ->
     p <> weight_pos (pw_cls l) (pw_n l) (Z.to_nat (which_segment l (at_ x [b; i]))) k) ->
  at_ g [o; i; p] = 0.
Proof.
  intros l x B delta g o i p H [Hs G] V N. specialize (G o i p V).
  eapply uniqueness_limite; [exact G|].
  set (c := rsum B (fun b => rsum (pw_out l) (fun o' => delta b o' * layer_out l (row x b) o'))).
  apply (derivable_affine 0 c). intros t. rewrite Rmult_0_l, Rplus_0_l. unfold c.
  apply rsum_ext. intros b Hb. apply rsum_ext. intros o' Ho'. f_equal.
  transitivity (layer_out (with_w l (pw_w l)) (row x b) o'); [|destruct l; reflexivity].
  apply locality; auto. intros i' k Hi' Hk. cbv zeta.
  destruct (list_eq_dec Nat.eq_dec [o'; i'; weight_pos (pw_cls l) (pw_n l) (Z.to_nat (which_segment l (row x b i'))) k] [o; i; p]) as [E|E];
    [|now apply upd_other].
  injection E as -> -> E. exfalso. apply (N b k Hb Hk). symmetry. exact E.
Qed.
Print Assumptions C32_gradient_zero.

(** Parameter [pi] of group [gi] of an optimizer. *)
Definition parameter (opt : list group) (gi pi : nat) : option param :=
  match nth_error opt gi with Some g => nth_error (g_params g) pi | None => None end.

(** What C31 says of the data where the gradient vanishes. *)
Definition lion_moves_data (g : tensor R) (q p : param) : Prop :=
  shape (pa_data p) = shape (pa_data q) /\ forall ix, at_ g ix = 0 -> at_ (pa_data p) ix = at_ (pa_data q) ix.

(** Training: on each batch, backward gives the layer's weights their gradient (the other parameters
    get anything), the optimizer steps, and the layer holds the new weights. *)
Inductive trained (gi pi : nat) : list group -> piecewise -> list (tensor R) -> list group -> piecewise -> Prop :=
| trained_nil opt l : trained gi pi opt l [] opt l
| trained_cons opt l x B delta g grads p xs opt' l' :
    shape x = [B; pw_in l] -> is_gradient l x B delta g -> grads gi pi = Some g ->
    parameter (SparseLion_step opt grads) gi pi = Some p ->
    trained gi pi (SparseLion_step opt grads) (with_w l (pa_data p)) xs opt' l' ->
    trained gi pi opt l (x :: xs) opt' l'.

Theorem C32_unvisited_weights_unchanged : forall gi pi opt l xs opt' l' o i p q,
  trained gi pi opt l xs opt' l' -> held l -> parameter opt gi pi = Some q -> pa_data q = pw_w l ->
  valid (shape (pw_w l)) [o; i; p] ->
  (forall x B b k, In x xs -> shape x = [B; pw_in l] -> (b < B)%nat -> (k < pw_n l)%nat ->
     p <> weight_pos (pw_cls l) (pw_n l) (Z.to_nat (which_segment l (at_ x [b; i]))) k) ->
  at_ (pw_w l') [o; i; p] = at_ (pw_w l) [o; i; p].
Proof.
  intros gi pi opt l xs opt' l' o i p q T. revert q. induction T; intros q Hl Hq E V N; [reflexivity|].
  assert (Q : lion_moves_data g q p0).
  { unfold parameter in Hq, H2. destruct (nth_error opt gi) as [gg|] eqn:Eg; [|discriminate].
    destruct (C31_step opt grads gi pi gg q Eg Hq) as (g' & p' & A1 & A2 & _ & _ & _ & M). rewrite A1, A2 in H2. injection H2 as <-.
    rewrite H1 in M. destruct M as [M0 M]. split; auto. intros ix Z. apply M, Z. }
  destruct Q as [Q0 Q].
  assert (Z : at_ g [o; i; p] = 0).
  { eapply C32_gradient_zero; eauto. intros b k Hb Hk. eapply N; eauto. now left. }
  assert (S : shape (pa_data p0) = shape (pw_w l)) by congruence.
  rewrite (IHT p0); cbn [pw_w with_w]; auto.
  - rewrite Q by auto. now rewrite E.
  - now apply with_w_held.
  - now rewrite S.
  - intros x' B' b k Hin Hsh Hb Hk. cbn [pw_n pw_cls pw_in with_w] in *.
    change (which_segment (with_w l (pa_data p0)) (at_ x' [b; i])) with (which_segment l (at_ x' [b; i])). eapply N; eauto. now right.
Qed.
Print Assumptions C32_unvisited_weights_unchanged.

(** In particular a whole segment of a discontinuous layer, and the inner nodes of a segment of a
    continuous one, keep their weights if no input ever fell in that segment. *)
Theorem C32_unvisited_segment_unchanged : forall gi pi opt l xs opt' l' o i s k q,
  trained gi pi opt l xs opt' l' -> held l -> parameter opt gi pi = Some q -> pa_data q = pw_w l ->
  (o < pw_out l)%nat -> (i < pw_in l)%nat -> (s < pw_segments l)%nat ->
  (discontinuous_class (pw_cls l) /\ (k < pw_n l)%nat \/ (0 < k < pw_n l - 1)%nat) ->
  (forall x B b, In x xs -> shape x = [B; pw_in l] -> (b < B)%nat -> which_segment l (at_ x [b; i]) <> Z.of_nat s) ->
  at_ (pw_w l') [o; i; weight_pos (pw_cls l) (pw_n l) s k] = at_ (pw_w l) [o; i; weight_pos (pw_cls l) (pw_n l) s k].
Proof.
  intros gi pi opt l xs opt' l' o i s k q T H Hq E Ho Hi Hs Hk N.
  pose proof (held_wf l H) as (W1 & W2 & W3 & W4 & W5 & W6).
  eapply C32_unvisited_weights_unchanged; eauto.
  - rewrite W6. cbn [valid]. repeat split; auto. unfold pw_num_weights, weight_pos.
    destruct Hk as [[Hc Hk]|Hk]; destruct (pw_cls l); cbn [is_continuous_class]; try (exfalso; destruct Hc; discriminate); nia.
  - intros x B b k' Hin Hsh Hb Hk' E'. specialize (N x B b Hin Hsh Hb).
    rewrite which_segment_seg in N, E' by auto. rewrite Nat2Z.id in E'.
    set (z := seg l _) in *. clearbody z. assert (z <> s) by congruence. unfold weight_pos in E'.
    assert (z < s \/ s < z)%nat as [L|L] by lia;
    destruct Hk as [[Hc Hk]|Hk]; destruct (pw_cls l); try (exfalso; destruct Hc; discriminate); nia.
Qed.
Print Assumptions C32_unvisited_segment_unchanged.

(** One training step of a discontinuous layer with two segments on the input 1/2 (second segment)
    leaves the first segment's weights alone; such a step exists. *)
Example C32_example :
  let l := new_piecewise PiecewiseDiscontinuousPolynomial 3 1 1 2 2 1 None (fun _ _ => 1) in
  exists opt l' g, new_SparseLion [pw_w l] (1/10) (9/10) (9/10) 0 = Ok opt /\
    trained 0 0 opt l [mkT [1%nat; 1%nat] (fun _ => 1/2)] (SparseLion_step opt (fun _ _ => Some g)) l' /\
    at_ (pw_w l') [0; 0; 2]%nat = at_ (pw_w l) [0; 0; 2]%nat.
Proof.
  intros l. assert (Hl : held l) by (apply new_held; lia).
  assert (Hin : which_segment l (1/2) = 1%Z).
  { change 1%Z with (Z.of_nat 1). rewrite which_segment_seg by (cbn; lia). f_equal.
    apply seg_spec; try (cbn; lia); [reflexivity|]. unfold in_segment, knot. cbn. split; [lia|]. split; right; lra. }
  unfold new_SparseLion, in_unit. destruct (Rlt_dec 0 (1/10)); [|lra].
  destruct (Rle_dec 0 (9/10)); [|lra]. destruct (Rle_dec (9/10) 1); [|lra]. cbn [andb].
  destruct (C32_gradient_exists l (mkT [1%nat; 1%nat] (fun _ => 1/2)) 1 (fun _ _ => 1) Hl) as (g & Hg).
  eexists. eexists. exists g. split; [reflexivity|].
  assert (T : trained 0 0 [mkGroup (1/10) (9/10) (9/10) 0 [mkParam (pw_w l) None]] l [mkT [1%nat; 1%nat] (fun _ => 1/2)]
    (SparseLion_step [mkGroup (1/10) (9/10) (9/10) 0 [mkParam (pw_w l) None]] (fun _ _ => Some g))
    (with_w l (pa_data (step_param (mkGroup (1/10) (9/10) (9/10) 0 [mkParam (pw_w l) None]) (mkParam (pw_w l) None) (Some g))))).
  { eapply trained_cons with (B := 1%nat) (grads := fun _ _ => Some g); [reflexivity|exact Hg|reflexivity|reflexivity|constructor]. }
  split; [exact T|].
  apply (C32_unvisited_segment_unchanged 0 0 _ l _ _ _ 0 0 0 2 (mkParam (pw_w l) None) T Hl); auto; try (cbn; lia).
  - left. split; [now left|cbn; lia].
  - intros x B b [<-|[]] Hs Hb. cbn [at_]. rewrite Hin. discriminate.
Qed.
