(** * Forward passes: from the tensor program to a formula per output entry. *)
From Coq Require Import String Ascii Reals ZArith List Lia Lra Psatz.
From Flocq Require Import Core.Raux.
From Verif Require Import Spec Tensor Utils LagrangePolynomial Basis PolynomialLayers SumFacts TensorFacts LagrangeFacts.
Import ListNotations.
Local Open Scope R_scope.

(** ** Segment selection *)

Lemma clampZ_range lo hi z : (lo <= hi)%Z -> (lo <= clampZ lo hi z <= hi)%Z.
Proof. unfold clampZ. lia. Qed.

Lemma segment_index_range l x : (1 <= pw_segments l)%nat ->
  (0 <= segment_index l x < Z.of_nat (pw_segments l))%Z.
Proof.
  intros H. unfold segment_index. pose proof (clampZ_range 0 (Z.of_nat (pw_segments l) - 1)
   (to_long ((x + pw_half l) / pw_length l * INR (pw_segments l)))). lia.
Qed.

(** Segment as a natural number. *)
Definition seg (l : piecewise) (x : R) : nat := Z.to_nat (segment_index l x).

Lemma seg_lt l x : (1 <= pw_segments l)%nat -> (seg l x < pw_segments l)%nat.
Proof. intros H. unfold seg. pose proof (segment_index_range l x H). lia. Qed.

Lemma seg_Z l x : (1 <= pw_segments l)%nat -> segment_index l x = Z.of_nat (seg l x).
Proof. intros H. unfold seg. pose proof (segment_index_range l x H). lia. Qed.

(** ** Well-formed layers: what the constructors establish and training preserves *)

Definition pw_wf (l : piecewise) : Prop :=
  (1 <= pw_n l)%nat /\ (1 <= pw_segments l)%nat /\ (1 <= pw_in l)%nat /\ (1 <= pw_out l)%nat /\
  pw_poly l = pw_poly_of (pw_cls l) (pw_n l) /\
  shape (pw_w l) = [pw_out l; pw_in l; pw_num_weights (pw_cls l) (pw_n l) (pw_segments l)].

(** Weight [k] of segment [s] of link [(o,i)]. *)
Definition seg_weight (l : piecewise) (o i s k : nat) : R :=
  at_ (pw_w l) [o; i; s * pw_stride (pw_cls l) (pw_n l) + k]%nat.

(** Polynomial of segment [s] in the global coordinate. *)
Definition piece (l : piecewise) (o i s : nat) (x : R) : R :=
  interp (pw_n l) 2 (seg_weight l o i s) (x_local l x (Z.of_nat s)).

(** The function of link [(o,i)], before and after the periodic folding. *)
Definition link0 (l : piecewise) (o i : nat) (x : R) : R := piece l o i (seg l x) x.
Definition link (l : piecewise) (o i : nat) (x : R) : R :=
  link0 l o i (apply_periodicity (pw_periodicity l) x).

(** How a unit combines its links. *)
Definition combine_links (alpha : option R) (m : nat) (f : nat -> R) : R :=
  match alpha with
  | None => rsum m f
  | Some a => rprod m (fun i => f i + 1) - 1 + (1 - a) * rsum m f
  end.

Definition alpha_of (c : pw_class) : option R :=
  match c with PiecewisePolynomial | PiecewiseDiscontinuousPolynomial => None | _ => Some 1 end.

Lemma pw_poly_of_eq c n : pw_poly_of c n = mkPoly n (get_lagrange_basis n 2) (alpha_of c).
Proof. now destruct c. Qed.

Lemma weight_index_lt c n S s k : (1 <= n)%nat -> (s < S)%nat -> (k < n)%nat ->
  (s * pw_stride c n + k < pw_num_weights c n S)%nat.
Proof.
  intros Hn Hs Hk. unfold pw_stride, pw_num_weights. destruct (is_continuous_class c).
  - assert (s * (n - 1) <= (S - 1) * (n - 1))%nat by (apply Nat.mul_le_mono_r; lia). nia.
  - assert (s * n <= (S - 1) * n)%nat by (apply Nat.mul_le_mono_r; lia). nia.
Qed.

(** Interpolation with batched weights, [Basis.interpolate] and [BasisProd.interpolate]. *)
Lemma poly_interpolate_gen c n (x w : tensor R) (B Bw I O : nat) : (1 <= n)%nat ->
  shape x = [B; I] -> shape w = [Bw; I; O; n] -> Bw = B \/ Bw = 1%nat ->
  exists y, poly_interpolate (pw_poly_of c n) x w = Ok y /\ shape y = [B; O] /\
    forall b o, (b < B)%nat -> (o < O)%nat ->
      at_ y [b; o] = combine_links (alpha_of c) I
        (fun i => interp n 2 (fun k => at_ w [bc Bw b; i; o; k]) (at_ x [b; i])).
Proof.
  intros Hn Hx Hw HB. rewrite pw_poly_of_eq. unfold poly_interpolate. cbn [poly_alpha poly_n poly_basis].
  assert (N0 : Nat.eqb n 0 = false) by (apply Nat.eqb_neq; lia).
  assert (HB' : bsize B Bw = Some B) by now apply bsize_r.
  destruct (alpha_of c) as [a|].
  - unfold BasisProd_interpolate, stack_basis. rewrite N0. cbn [rbind].
    unfold einsum2. cbn [shape stack]. rewrite Hx, Hw. cbn.
    rewrite HB'. cbn. rewrite !bsize_refl. cbn.
    eexists; split; [reflexivity|]. split; [reflexivity|].
    intros b o Hb Ho. cbn [tmap tmap2 prod_combine prod_last sum_last at_ shape removelast last app].
    assert (E : forall i, (i < I)%nat ->
       rsum n (fun v => call (lb_basis (get_lagrange_basis n 2)) (at_ x [bc B b; bc I i]) (bc n v) * at_ w [bc Bw b; bc I i; bc O o; bc n v])
       = interp n 2 (fun k => at_ w [bc Bw b; i; o; k]) (at_ x [b; i])).
    { intros i Hi. apply rsum_ext. intros v Hv. rewrite !(bc_id B), !(bc_id I), !(bc_id O), !(bc_id n) by auto. reflexivity. }
    cbn. f_equal; [f_equal; apply rprod_ext; intros i Hi; f_equal; now apply E|].
    f_equal. apply rsum_ext. intros i Hi. now apply E.
  - unfold Basis_interpolate, stack_basis. rewrite N0. cbn [rbind].
    unfold einsum2. cbn [shape stack]. rewrite Hx, Hw. cbn.
    rewrite HB'. cbn. rewrite !bsize_refl. cbn.
    eexists; split; [reflexivity|]. split; [reflexivity|].
    intros b o Hb Ho. cbn. rewrite rsum_swap. apply rsum_ext. intros i Hi. apply rsum_ext. intros v Hv.
    rewrite !(bc_id B), !(bc_id I), !(bc_id O), !(bc_id n) by auto. reflexivity.
Qed.

Lemma poly_interpolate_spec c n (x w : tensor R) (B I O : nat) : (1 <= n)%nat ->
  shape x = [B; I] -> shape w = [B; I; O; n] ->
  exists y, poly_interpolate (pw_poly_of c n) x w = Ok y /\ shape y = [B; O] /\
    forall b o, (b < B)%nat -> (o < O)%nat ->
      at_ y [b; o] = combine_links (alpha_of c) I
        (fun i => interp n 2 (fun k => at_ w [b; i; o; k]) (at_ x [b; i])).
Proof.
  intros Hn Hx Hw. destruct (poly_interpolate_gen c n x w B B I O Hn Hx Hw (or_introl eq_refl)) as (y & E & Hs & Hy).
  exists y. repeat split; auto. intros b o Hb Ho. rewrite Hy by auto. now rewrite bc_id.
Qed.

Theorem pw_forward_spec l x B : pw_wf l -> shape x = [B; pw_in l] ->
  exists y, Piecewise_forward l x = Ok y /\ shape y = [B; pw_out l] /\
    forall b o, (b < B)%nat -> (o < pw_out l)%nat ->
      at_ y [b; o] = combine_links (alpha_of (pw_cls l)) (pw_in l)
                       (fun i => link l o i (at_ x [b; i])).
Proof.
  intros (Hn & HS & HI & HO & Hp & Hw) Hx.
  unfold Piecewise_forward.
  set (x1 := tmap (apply_periodicity (pw_periodicity l)) x).
  set (n := pw_n l) in *. set (I := pw_in l) in *. set (O := pw_out l) in *.
  set (st := pw_stride (pw_cls l) n). set (nw := pw_num_weights (pw_cls l) n (pw_segments l)) in *.
  set (id_min := tmap (segment_index l) x1).
  set (wid_min := tmap (fun i => (i * Z.of_nat st)%Z) id_min).
  set (wr3 := mkT (shape wid_min ++ [n]) (fun ix => (at_ wid_min (removelast ix) + Z.of_nat (last ix 0%nat))%Z)).
  set (wrange := flatten wr3).
  assert (Hs3 : shape wr3 = [B; I; n]) by (unfold wr3; cbn; now rewrite Hx).
  assert (Hnum : numel wr3 = (B * I * n)%nat) by (unfold numel; rewrite Hs3; cbn; lia).
  assert (Hnumr : numel wrange = (B * I * n)%nat) by (unfold numel at 1; cbn [wrange flatten shape prodn]; rewrite Hnum; lia).
  cbv zeta. set (windex := tmap _ (arange (numel wrange))).
  assert (Hwr : forall m, (m < B * I * n)%nat -> at_ wrange [m] =
       Z.of_nat (seg l (at_ x1 [m / n / I; (m / n) mod I]%nat) * st + m mod n)%nat).
  { intros m Hm. unfold wrange, flatten. cbn [at_]. rewrite Hs3. cbn [ravel prodn].
    rewrite Nat.mul_1_r, Nat.add_0_r. unfold wr3. cbn [at_ unravel prodn removelast last].
    rewrite !Nat.mul_1_r, !Nat.div_1_r.
    rewrite (Nat.mul_comm I n), <- (Nat.div_div m n I) by lia.
    assert (M1 : (m mod (n * I) / n = (m / n) mod I)%nat).
    { rewrite Nat.mod_mul_r by lia. rewrite (Nat.mul_comm n), Nat.div_add by lia.
      rewrite (Nat.div_small (m mod n)) by (apply Nat.mod_upper_bound; lia). lia. }
    assert (M2 : ((m mod (n * I)) mod n = m mod n)%nat).
    { rewrite Nat.mod_mul_r by lia. rewrite (Nat.mul_comm n), Nat.mod_add by lia. apply Nat.mod_mod. lia. }
    rewrite M1, M2. unfold wid_min, id_min. cbn [tmap at_ shape]. rewrite seg_Z by auto. lia. }
  assert (Hwi : forall m, at_ windex [m] = Z.of_nat ((m / n) mod I)%nat).
  { intros m. unfold windex. cbn. rewrite Nat2Z.inj_mod, Nat2Z.inj_div. reflexivity. }
  assert (Hbound : forall m, (m < B * I * n)%nat ->
      ((m / n) mod I < I /\ seg l (at_ x1 [m / n / I; (m / n) mod I]%nat) * st + m mod n < nw)%nat).
  { intros m Hm. split; [apply Nat.mod_upper_bound; lia|].
    apply weight_index_lt; auto; [now apply seg_lt | apply Nat.mod_upper_bound; lia]. }
  (* the gather succeeds *)
  unfold index_rows. rewrite Hw.
  change (shape windex) with [numel wrange]. change (shape wrange) with [numel wr3].
  cbv iota beta. rewrite Hnumr, Hnum, Nat.eqb_refl.
  replace (forallb _ _) with true.
  2:{ symmetry. apply forallb_forall. intros m Hm. apply in_seq in Hm.
      rewrite Hwi, Hwr by lia. destruct (Hbound m ltac:(lia)) as [H1 H2].
      unfold index_ok. rewrite !Bool.andb_true_iff, !Z.leb_le, !Z.ltb_lt. lia. }
  cbn [rbind].
  (* view *)
  unfold view_infer. unfold numel at 1 2. cbn [shape prodn].
  replace (O * 1 * (I * (n * 1)))%nat with (O * I * n)%nat by lia.
  destruct (Nat.eqb_spec (O * I * n) 0) as [E|_]; [nia|].
  replace (O * (B * I * n * 1))%nat with (B * (O * I * n))%nat by lia.
  rewrite Nat.mod_mul, Nat.div_mul by nia. cbn [Nat.eqb].
  unfold reshape, numel. cbn [app shape prodn].
  replace (O * (B * (I * (n * 1))))%nat with (O * (B * I * n * 1))%nat by lia.
  rewrite Nat.eqb_refl. cbn [rbind].
  (* interpolate *)
  rewrite Hp.
  set (w3 := permute _ _).
  assert (Hw3 : shape w3 = [B; I; O; n]) by reflexivity.
  destruct (poly_interpolate_spec (pw_cls l) n (tmap2 (fun v i => x_local l v i) x1 id_min) w3 B I O Hn)
    as (y & Hy & Hys & Hyv); [cbn; auto | auto |].
  exists y. split; [exact Hy|]. split; [exact Hys|].
  intros b o Hb Ho. rewrite Hyv by auto.
  assert (L : forall i, (i < I)%nat ->
     interp n 2 (fun k => at_ w3 [b; i; o; k]) (at_ (tmap2 (fun v i => x_local l v i) x1 id_min) [b; i])
     = link l o i (at_ x [b; i])).
  { intros i Hi. unfold link, link0, piece. cbn [tmap2 at_].
    change (apply_periodicity (pw_periodicity l) (at_ x [b; i])) with (at_ x1 [b; i]).
    unfold id_min. cbn [tmap at_]. rewrite seg_Z by auto.
    apply rsum_ext. intros k Hk. f_equal. unfold seg_weight. fold st. fold n.
    clear Hs3 Hnum Hnumr. unfold w3, permute. clear w3 Hw3 Hy Hyv. clearbody windex. clearbody wrange. cbn -[Nat.div Nat.modulo st].
    rewrite !Nat.mul_1_r, !Nat.add_0_r, !Nat.div_1_r.
    replace (o * (B * (I * n)) + (b * (I * n) + (i * n + k)))%nat with (o * (B * I * n) + ((b * I + i) * n + k))%nat by ring.
    assert (HK : ((b * I + i) * n + k < B * I * n)%nat).
    { assert ((b * I + i) < B * I)%nat by nia. nia. }
    rewrite div_add_l, mod_add_l by auto.
    f_equal. rewrite Hwi, Hwr by auto.
    assert (D1 : (((b * I + i) * n + k) / n = b * I + i)%nat) by (apply div_add_l; auto).
    assert (D2 : (((b * I + i) * n + k) mod n = k)%nat) by (apply mod_add_l; auto).
    assert (D3 : ((b * I + i) mod I = i)%nat) by (apply mod_add_l; auto).
    assert (D4 : ((b * I + i) / I = b)%nat) by (apply div_add_l; auto).
    rewrite D1, D2, D3, D4, !wrap_nat, !Nat2Z.id by lia. reflexivity. }
  unfold combine_links. destruct (alpha_of (pw_cls l)).
  - rewrite (rprod_ext I _ (fun i => link l o i (at_ x [b; i]) + 1)), (rsum_ext I _ (fun i => link l o i (at_ x [b; i]))); auto.
    intros i Hi. now rewrite L.
  - now apply rsum_ext.
Qed.
