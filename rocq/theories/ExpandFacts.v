(** * Expansions: from the tensor program to a formula per entry. *)
From Coq Require Import Reals ZArith List Lia Lra Psatz Bool.
From Flocq Require Import Core.Raux.
From Verif Require Import Spec Tensor Utils LagrangePolynomial Basis PolynomialLayers Expand
  SumFacts TensorFacts LagrangeFacts LayerFacts SegmentFacts.
Import ListNotations.
Local Open Scope R_scope.

Lemma prodn_app s t : prodn (s ++ t) = (prodn s * prodn t)%nat.
Proof. induction s; cbn; [lia|]. rewrite IHs. lia. Qed.

Lemma mod_mul_div m n P : (1 <= n)%nat -> (1 <= P)%nat -> ((m mod (n * P)) / n = (m / n) mod P)%nat.
Proof.
  intros. rewrite Nat.mod_mul_r by lia. rewrite (Nat.mul_comm n), Nat.div_add by lia.
  rewrite (Nat.div_small (m mod n)) by (apply Nat.mod_upper_bound; lia). lia.
Qed.
Lemma mod_mul_mod m n P : (1 <= n)%nat -> (1 <= P)%nat -> ((m mod (n * P)) mod n = m mod n)%nat.
Proof.
  intros. rewrite Nat.mod_mul_r by lia. rewrite (Nat.mul_comm n), Nat.mod_add by lia. apply Nat.mod_mod. lia.
Qed.

Lemma unravel_snoc n s : (1 <= n)%nat -> forall m, (m < prodn s * n)%nat ->
  unravel (s ++ [n]) m = unravel s (m / n) ++ [m mod n]%nat.
Proof.
  intros Hn. induction s as [|d s IH]; intros m Hm.
  - cbn [app unravel prodn] in *. rewrite Nat.div_1_r. f_equal. symmetry. apply Nat.mod_small. lia.
  - cbn [app unravel]. rewrite prodn_app. cbn [prodn]. rewrite Nat.mul_1_r.
    cbn [prodn] in Hm. assert (HP : (1 <= prodn s)%nat) by nia.
    rewrite (Nat.mul_comm (prodn s) n). f_equal.
    + now rewrite Nat.div_div by lia.
    + rewrite IH.
      * now rewrite mod_mul_div, mod_mul_mod by lia.
      * rewrite (Nat.mul_comm (prodn s)). apply Nat.mod_upper_bound. nia.
Qed.

Lemma ravel_snoc n s : forall ix k, valid s ix -> ravel (s ++ [n]) (ix ++ [k]) = (ravel s ix * n + k)%nat.
Proof.
  induction s as [|d s IH]; intros [|i ix] k H; cbn in H; try tauto; cbn; [lia|].
  rewrite IH by tauto. rewrite prodn_app. cbn. lia.
Qed.

Lemma valid_snoc n s : forall ix k, valid s ix -> (k < n)%nat -> valid (s ++ [n]) (ix ++ [k]).
Proof. induction s as [|d s IH]; intros [|i ix] k H Hk; cbn in *; try tauto. intuition. Qed.

(** Scattered writes at pairwise different places. *)
Lemma fold_put {A} (f : nat -> index) (v : nat -> A) k : forall t,
  (forall m m', (m < k)%nat -> (m' < k)%nat -> f m = f m' -> m = m') ->
  let r := fold_left (fun t m => upd t (f m) (v m)) (seq 0 k) t in
  shape r = shape t /\
  (forall m, (m < k)%nat -> at_ r (f m) = v m) /\
  (forall ix, (forall m, (m < k)%nat -> f m <> ix) -> at_ r ix = at_ t ix).
Proof.
  induction k; intros t Inj; [cbn; split; [auto|split; [intros; lia|auto]]|].
  cbv zeta. rewrite seq_S, fold_left_app. cbn [fold_left Nat.add].
  destruct (IHk t) as (Sh & In & Out); [intros; apply Inj; auto; lia|]. cbv zeta in *.
  set (r := fold_left _ (seq 0 k) t) in *. repeat split.
  - exact Sh.
  - intros m Hm. destruct (Nat.eq_dec m k) as [->|N]; [apply upd_same|].
    rewrite upd_other; [apply In; lia|]. intros E. apply Inj in E; lia.
  - intros ix N. rewrite upd_other; [apply Out; intros; apply N; lia|]. intros E. apply (N k); auto.
Qed.

Lemma expand_index_clamp e x : (1 <= e_segments e)%nat ->
  expand_index e x = clampZ 0 (Z.of_nat (e_segments e) - 1) (to_long ((x + e_half e) / e_length e * INR (e_segments e))).
Proof.
  intros H. unfold expand_index. set (z := to_long _). destruct (e_cls e); auto; unfold clampZ;
  destruct (Z.leb_spec z (Z.of_nat (e_segments e) - 1)); destruct (Z.geb_spec z 0);
  try destruct (Z.geb_spec (Z.of_nat (e_segments e) - 1) 0); lia.
Qed.

Definition eseg (e : expand) (x : R) : nat := Z.to_nat (expand_index e x).
Lemma expand_index_range e x : (1 <= e_segments e)%nat -> (0 <= expand_index e x < Z.of_nat (e_segments e))%Z.
Proof. intros H. rewrite expand_index_clamp by auto. unfold clampZ. lia. Qed.
Lemma eseg_Z e x : (1 <= e_segments e)%nat -> expand_index e x = Z.of_nat (eseg e x).
Proof. intros H. unfold eseg. pose proof (expand_index_range e x H). lia. Qed.
Lemma eseg_lt e x : (1 <= e_segments e)%nat -> (eseg e x < e_segments e)%nat.
Proof. intros H. unfold eseg. pose proof (expand_index_range e x H). lia. Qed.

Lemma e_index_lt e s k : (1 <= e_n e)%nat -> (s < e_segments e)%nat -> (k < e_n e)%nat ->
  (s * e_stride e + k < e_variables e)%nat.
Proof.
  intros Hn Hs Hk. unfold e_stride, e_variables. destruct (e_continuous e).
  - assert (s * (e_n e - 1) <= (e_segments e - 1) * (e_n e - 1))%nat by (apply Nat.mul_le_mono_r; lia). nia.
  - assert (s * e_n e <= (e_segments e - 1) * e_n e)%nat by (apply Nat.mul_le_mono_r; lia). nia.
Qed.

(** Value [v] of the expansion of one number. *)
Definition expand_value (e : expand) (x : R) (v : nat) : R :=
  let s := (eseg e x * e_stride e)%nat in
  if (Nat.leb s v && Nat.ltb v (s + e_n e))%bool
  then call (e_basis e) (expand_x_in e x (expand_index e x)) (v - s)
  else 0.

Lemma expand_scatter e (x out : tensor R) s : (1 <= e_n e)%nat -> (1 <= e_segments e)%nat -> shape x = s ->
  shape out = s ++ [e_n e] ->
  (forall ix k, valid s ix -> (k < e_n e)%nat -> at_ out (ix ++ [k]) = call (e_basis e) (expand_x_in e (at_ x ix) (expand_index e (at_ x ix))) k) ->
  let wid_min := tmap (fun i => (i * Z.of_nat (e_stride e))%Z) (tmap (expand_index e) x) in
  let mat := mkT (shape x ++ [e_variables e]) (fun _ => 0) in
  let wid_min_flat := flatten wid_min in
  let wrange := mkT [numel wid_min; e_n e] (fun ix => match ix with
                  | [m; k] => (at_ wid_min_flat [m] + Z.of_nat k)%Z | _ => 0%Z end) in
  let windex := tmap (fun m => (m / Z.of_nat (e_n e))%Z) (arange (numel wrange)) in
  exists y, (mat_trans <- view_infer [] [e_variables e] mat ;;
     mat_trans <- put_rows mat_trans windex (flatten wrange) (flatten out) ;;
     reshape (shape mat) mat_trans) = Ok y /\ shape y = s ++ [e_variables e] /\
   forall ix v, valid s ix -> (v < e_variables e)%nat -> at_ y (ix ++ [v]) = expand_value e (at_ x ix) v.
Proof.
  intros Hn HS Hx Ho Vo wid_min mat wmf wrange windex.
  set (n := e_n e) in *. set (V := e_variables e) in *. set (N := prodn s).
  assert (HV : (1 <= V)%nat) by (pose proof (e_index_lt e 0 0 Hn HS ltac:(lia)); fold V in H; lia).
  assert (Nw : numel wid_min = N) by (unfold numel, wid_min; cbn; now rewrite Hx).
  assert (Nr : numel wrange = (N * n)%nat) by (unfold numel at 1; cbn [wrange shape prodn]; rewrite Nw; lia).
  assert (No : numel out = (N * n)%nat) by (unfold numel; rewrite Ho, prodn_app; cbn; fold N; lia).
  assert (Nm : numel mat = (N * V)%nat) by (unfold numel; cbn [mat shape]; rewrite Hx, prodn_app; cbn; fold N V; lia).
  (* the zero matrix *)
  unfold view_infer. cbn [prodn app]. rewrite Nm, !Nat.mul_1_l, !Nat.mul_1_r.
  destruct (Nat.eqb_spec V 0); [lia|]. rewrite Nat.mod_mul by lia. rewrite Nat.eqb_refl. rewrite Nat.div_mul by lia.
  unfold reshape at 1. cbn [prodn]. rewrite Nm, Nat.mul_1_r, Nat.eqb_refl. cbn [rbind].
  set (mt := mkT [N; V] (fun ix => at_ mat (unravel (shape mat) (ravel [N; V] ix)))).
  assert (Wr : forall m, (m < N * n)%nat ->
     at_ (flatten wrange) [m] = Z.of_nat (eseg e (at_ x (unravel s (m / n))) * e_stride e + m mod n)).
  { intros m Hm. unfold flatten. cbn [at_]. rewrite Nr. cbn [ravel prodn].
    replace (m * 1 + 0)%nat with m by lia. cbn [wrange shape]. rewrite Nw. cbn [unravel prodn].
    rewrite !Nat.mul_1_r, Nat.div_1_r. unfold wrange, wmf, flatten. cbn [at_].
    rewrite Nw. cbn [ravel prodn].
    replace (m / n * 1 + 0)%nat with (m / n)%nat by lia. cbn [wid_min tmap shape at_]. rewrite Hx.
    rewrite eseg_Z by auto. lia. }
  assert (Wi : forall m, at_ windex [m] = Z.of_nat (m / n)).
  { intros m. unfold windex. cbn [tmap arange at_ hd]. now rewrite Nat2Z.inj_div. }
  assert (B : forall m, (m < N * n)%nat -> (m / n < N)%nat /\
     (eseg e (at_ x (unravel s (m / n))) * e_stride e + m mod n < V)%nat).
  { intros m Hm. split; [apply Nat.div_lt_upper_bound; lia|].
    apply e_index_lt; auto; [now apply eseg_lt|]. apply Nat.mod_upper_bound. fold n. lia. }
  unfold put_rows. cbn [mt shape].
  assert (S1 : shape windex = [(N * n)%nat]) by (unfold windex; cbn [tmap arange shape]; now rewrite Nr).
  assert (S2 : shape (flatten wrange) = [(N * n)%nat]) by (cbn [flatten shape]; now rewrite Nr).
  assert (S3 : shape (flatten out) = [(N * n)%nat]) by (cbn [flatten shape]; now rewrite No).
  rewrite S1, S2, S3, Nat.eqb_refl. cbn [andb].
  assert (F : forallb (fun m => (index_ok N (at_ windex [m]) && index_ok V (at_ (flatten wrange) [m]))%bool) (seq 0 (N * n)) = true).
  { apply forallb_forall. intros m Hm. apply in_seq in Hm. rewrite Wi, Wr by lia. destruct (B m) as [B1 B2]; [lia|].
    unfold index_ok. apply andb_true_iff. split; apply andb_true_iff; split; try (apply Z.leb_le; lia); apply Z.ltb_lt; lia. }
  rewrite F. cbn [rbind].
  set (f := fun m => [wrap N (at_ windex [m]); wrap V (at_ (flatten wrange) [m])]).
  assert (Ef : forall m, (m < N * n)%nat -> f m = [m / n; eseg e (at_ x (unravel s (m / n))) * e_stride e + m mod n]%nat).
  { intros m Hm. unfold f. rewrite Wi, Wr by auto. rewrite !wrap_nat by lia. now rewrite !Nat2Z.id. }
  destruct (fold_put f (fun m => at_ (flatten out) [m]) (N * n) mt) as (Sh & In & Out).
  { intros m m' Hm Hm' E. rewrite !Ef in E by auto. injection E as E1 E2. rewrite E1 in E2.
    rewrite (Nat.div_mod m n), (Nat.div_mod m' n) by lia. lia. }
  cbv zeta in *. fold mt.
  change (fold_left (fun t m => upd t [wrap N (at_ windex [m]); wrap V (at_ (flatten wrange) [m])] (at_ (flatten out) [m])) (seq 0 (N * n)) mt)
    with (fold_left (fun t m => upd t (f m) (at_ (flatten out) [m])) (seq 0 (N * n)) mt).
  set (r := fold_left _ _ mt) in *. unfold reshape, numel. rewrite Sh. cbn [mt shape mat]. rewrite Hx, prodn_app.
  cbn [prodn]. fold N. rewrite Nat.mul_1_r, Nat.eqb_refl. eexists; split; [reflexivity|]. split; [reflexivity|].
  intros ix v Hix Hv. cbn [at_]. rewrite ravel_snoc by auto. cbn [unravel prodn]. rewrite Nat.mul_1_r, Nat.div_1_r.
  rewrite div_add_l, mod_add_l by auto.
  pose proof (ravel_lt s ix Hix) as HL. fold N in HL.
  unfold expand_value. fold n. set (sg := (eseg e (at_ x ix) * e_stride e)%nat).
  destruct (Nat.leb_spec sg v) as [L1|L1]; cbn [andb]; [destruct (Nat.ltb_spec v (sg + n)) as [L2|L2]|].
  - set (m := (ravel s ix * n + (v - sg))%nat).
    assert (Hm : (m < N * n)%nat) by (unfold m; nia).
    assert (D : (m / n = ravel s ix)%nat) by (unfold m; apply div_add_l; lia).
    assert (Mo : (m mod n = v - sg)%nat) by (unfold m; apply mod_add_l; lia).
    replace [ravel s ix; v] with (f m).
    + rewrite In by auto. unfold flatten. cbn [at_]. rewrite No. cbn [ravel prodn].
      replace (m * 1 + 0)%nat with m by lia. rewrite Ho, unravel_snoc by (auto; fold N; lia).
      rewrite D, Mo, unravel_ravel by auto. apply Vo; auto. lia.
    + rewrite Ef by auto. rewrite D, Mo, unravel_ravel by auto. fold sg. f_equal. f_equal. lia.
  - rewrite Out; [reflexivity|]. intros m Hm E. rewrite Ef in E by auto. injection E as E1 E2.
    rewrite E1, unravel_ravel in E2 by auto. fold sg in E2. pose proof (Nat.mod_upper_bound m n). lia.
  - rewrite Out; [reflexivity|]. intros m Hm E. rewrite Ef in E by auto. injection E as E1 E2.
    rewrite E1, unravel_ravel in E2 by auto. fold sg in E2. lia.
Qed.

Theorem expand_call_spec e x : (1 <= e_n e)%nat -> (1 <= e_segments e)%nat -> length (shape x) = e_rank e ->
  exists y, expand_call e x = Ok y /\ shape y = e_variables e :: shape x /\
   forall v ix, (v < e_variables e)%nat -> valid (shape x) ix -> at_ y (v :: ix) = expand_value e (at_ x ix) v.
Proof.
  intros Hn HS HL. unfold expand_call. cbv zeta.
  unfold stack_basis. destruct (Nat.eqb_spec (e_n e) 0); [lia|]. cbn [rbind].
  rewrite HL, Nat.ltb_irrefl.
  set (out0 := stack (e_n e) _ _). set (out := permute (seq 1 (e_rank e) ++ [0%nat]) out0).
  assert (Ho : shape out = shape x ++ [e_n e] /\
     forall ix k, valid (shape x) ix -> (k < e_n e)%nat -> at_ out (ix ++ [k]) = at_ out0 (k :: ix)).
  { unfold out, out0. cbn [permute stack shape tmap2 tmap at_]. unfold e_rank in *.
    destruct (e_cls e); destruct (shape x) as [|a [|b [|c [|d [|]]]]] eqn:Ex; try discriminate HL; cbn; (split; [reflexivity|]);
    intros ix k Hix Hk; destruct ix as [|i1 [|i2 [|i3 [|i4 [|]]]]]; cbn in Hix; try tauto; reflexivity. }
  destruct Ho as [Ho Vo].
  destruct (expand_scatter e x out (shape x) Hn HS eq_refl Ho) as (y & E & Sh & Vy).
  { intros ix k Hix Hk. rewrite Vo by auto. unfold out0. cbn [stack at_ tmap tmap2]. reflexivity. }
  cbv zeta in E. 
  match type of E with rbind ?a _ = _ => destruct a as [mt|ex] eqn:Ea; [|discriminate E] end. cbn [rbind] in *.
  match type of E with rbind ?a _ = _ => destruct a as [mt'|ex] eqn:Eb; [|discriminate E] end. cbn [rbind] in *.
  rewrite E. cbn [rbind]. eexists; split; [reflexivity|].
  unfold permute. rewrite Sh. cbn [shape at_]. unfold e_rank in *.
  destruct (e_cls e); destruct (shape x) as [|a [|b [|c [|d [|]]]]] eqn:Ex; try discriminate HL; cbn [app seq map nth length index_of Nat.eqb];
  (split; [reflexivity|]); intros v ix Hv Hix; destruct ix as [|i1 [|i2 [|i3 [|i4 [|]]]]]; cbn in Hix; try tauto; rewrite <- Vy by (auto; cbn; tauto); reflexivity.
Qed.
