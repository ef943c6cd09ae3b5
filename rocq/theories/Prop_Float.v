(** * C54, C63: normalisation and periodicity in floating point. *)
From Coq Require Import Reals ZArith List Lia Lra.
From Flocq Require Import Core Relative Plus_error.
From Verif Require Import Spec Tensor Utils Normalization Observe FloatUtils TensorFacts NormFacts Prop_Norm.
Import ListNotations.
Local Open Scope R_scope.

Section Format.
Variables emin prec : Z.
Hypothesis Hprec : (0 < prec)%Z.
Hypothesis Hemin : (emin <= 0)%Z.
Local Instance prec_pos : Prec_gt_0 prec := Hprec.
Notation rnd := (nearest emin prec).
Notation fmt := (representable emin prec).

Lemma fmt_1 : fmt 1.
Proof. change 1 with (bpow radix2 0). apply generic_format_FLT_bpow; auto. Qed.
Lemma rnd_fmt x : fmt (rnd x).
Proof. apply generic_format_round; apply _. Qed.
Lemma rnd_id x : fmt x -> rnd x = x.
Proof. apply round_generic; apply _. Qed.
Lemma rnd_le x y : x <= y -> rnd x <= rnd y.
Proof. apply round_le; apply _. Qed.
Lemma rnd_0 : rnd 0 = 0.
Proof. apply round_0; apply _. Qed.
Lemma fmt_opp x : fmt x -> fmt (- x).
Proof. apply generic_format_opp. Qed.
Lemma rnd_abs_le x y : fmt y -> Rabs x <= y -> Rabs (rnd x) <= y.
Proof. apply abs_round_le_generic; apply _. Qed.

(** One entry: [M] the largest absolute value. *)
Lemma quotient_le_1 a M eps : fmt M -> Rabs a <= M -> 0 <= eps -> 0 < M + eps ->
  0 < rnd (M + rnd eps) -> Rabs (rnd (a / rnd (M + rnd eps))) <= 1.
Proof.
  intros HM Ha He Hp Hd. apply rnd_abs_le; [apply fmt_1|].
  assert (L : M <= rnd (M + rnd eps)).
  { rewrite <- (rnd_id M HM) at 1. apply rnd_le. assert (0 <= rnd eps) by (rewrite <- rnd_0; now apply rnd_le). lra. }
  set (d := rnd (M + rnd eps)) in *. unfold Rdiv. rewrite Rabs_mult, (Rabs_right (/ d)) by (apply Rle_ge, Rlt_le, Rinv_0_lt_compat, Hd).
  apply (Rmult_le_reg_r d); auto. rewrite Rmult_assoc, Rinv_l by lra. lra.
Qed.

Lemma quotient_error a M eps : fmt M -> Rabs a <= M -> 0 <= eps -> 0 < rnd (M + rnd eps) ->
  Rabs (rnd (a / rnd (M + rnd eps)) - a / (M + rnd eps)) <= bpow radix2 (1 - prec) + bpow radix2 (emin - 1).
Proof.
  intros HM Ha He Hd. pose proof (Rabs_pos a).
  assert (E0 : 0 <= rnd eps) by (rewrite <- rnd_0; now apply rnd_le). set (e := rnd eps) in *.
  assert (Pd : 0 < M + e). { destruct (Rlt_le_dec 0 (M + e)) as [|L]; auto. exfalso. apply rnd_le in L. rewrite rnd_0 in L. lra. }
  assert (L : M <= rnd (M + e)). { rewrite <- (rnd_id M HM) at 1. apply rnd_le. lra. }
  destruct (FLT_plus_error_N_ex radix2 emin prec (fun n => negb (Z.even n)) M e HM (rnd_fmt eps)) as (e1 & B1 & R1).
  change (round radix2 (FLT_exp emin prec) ZnearestE (M + e)) with (rnd (M + e)) in R1. set (d := rnd (M + e)) in *.
  assert (B1' : Rabs e1 <= / 2 * bpow radix2 (- prec + 1)).
  { eapply Rle_trans; [exact B1|]. fold (u_ro radix2 prec). assert (U : 0 < u_ro radix2 prec) by (unfold u_ro; apply Rmult_lt_0_compat; [lra|apply bpow_gt_0]).
    change (u_ro radix2 prec / (1 + u_ro radix2 prec) <= u_ro radix2 prec). apply (Rmult_le_reg_r (1 + u_ro radix2 prec)); [lra|]. unfold Rdiv. rewrite Rmult_assoc, Rinv_l by lra. nra. }
  destruct (error_N_FLT radix2 emin prec Hprec (fun n => negb (Z.even n)) (a / d)) as (e2 & eta & B2 & B3 & _ & R2).
  change (round radix2 (FLT_exp emin prec) ZnearestE (a / d)) with (rnd (a / d)) in R2. rewrite R2.
  assert (T : Rabs (a / d) <= 1).
  { unfold Rdiv. rewrite Rabs_mult, (Rabs_right (/ d)) by (apply Rle_ge, Rlt_le, Rinv_0_lt_compat, Hd).
    apply (Rmult_le_reg_r d); auto. rewrite Rmult_assoc, Rinv_l by lra. lra. }
  replace (a / (M + e)) with (a / d * (1 + e1)) by (rewrite R1; field; split; [lra|intros Z; rewrite R1, Z in Hd; lra]).
  replace (a / d * (1 + e2) + eta - a / d * (1 + e1)) with (a / d * e2 + - (a / d * e1) + eta) by ring.
  assert (Q : forall e, Rabs e <= / 2 * bpow radix2 (- prec + 1) -> Rabs (a / d * e) <= / 2 * bpow radix2 (- prec + 1)).
  { intros e' He'. rewrite Rabs_mult. pose proof (Rabs_pos e'). pose proof (Rabs_pos (a / d)). nra. }
  pose proof (Q _ B1'). pose proof (Q _ B2). replace (bpow radix2 (emin - 1)) with (/ 2 * bpow radix2 emin).
  2:{ unfold Zminus. rewrite bpow_plus. cbn [bpow Z.opp Z.pow_pos Pos.iter radix_val radix2]. cbn. ring. }
  replace (1 - prec)%Z with (- prec + 1)%Z by lia.
  eapply Rle_trans; [apply Rabs_triang|]. eapply Rle_trans; [apply Rplus_le_compat_r, Rabs_triang|]. rewrite Rabs_Ropp. lra.
Qed.
End Format.

(** Normalising finite floating point numbers gives numbers in [[-1, 1]], within [2^(1-prec) + 2^(emin-1)] of what
    real arithmetic gives. *)
Theorem C54_max_abs : forall emin prec x eps dim, (0 < prec)%Z -> (emin <= 0)%Z ->
  (forall ix, valid (shape x) ix -> representable emin prec (at_ x ix)) -> 0 <= eps ->
  dim_in_range x dim -> nth (dim_of x dim) (shape x) 0%nat <> 0%nat ->
  (forall ix M, valid (shape x) ix -> is_largest (in_slice (shape x) (dim_of x dim) ix) (fun jx => Rabs (at_ x jx)) M ->
     0 < M + nearest emin prec eps) ->
  exists y z, fl_max_abs_normalization (nearest emin prec) x eps dim = Ok y /\
    max_abs_normalization x (nearest emin prec eps) dim = Ok z /\ shape y = shape x /\ shape z = shape x /\
    forall ix, valid (shape x) ix ->
      representable emin prec (at_ y ix) /\ -1 <= at_ y ix <= 1 /\
      Rabs (at_ y ix - at_ z ix) <= bpow radix2 (1 - prec) + bpow radix2 (emin - 1).
Proof.
  intros emin prec x eps dim Hp He Hf Heps Hd Hn Hpos.
  unfold fl_max_abs_normalization, max_abs_normalization, max_abs, reduce_keep. cbn [tmap shape]. rewrite (dim_in_range_ok x dim Hd), dim_of_wrap.
  assert (Nz : Nat.eqb (nth (dim_of x dim) (shape x) 0%nat) 0 = false) by now apply Nat.eqb_neq. rewrite Nz. cbn [andb rbind].
  eexists. eexists. split; [reflexivity|]. split; [reflexivity|]. do 2 (split; [reflexivity|]). intros ix V. cbn [with_reduced at_ shape]. rewrite dim_of_wrap.
  assert (Hr : (dim_of x dim < length (shape x))%nat) by (destruct Hd as [A B]; unfold dim_of; destruct (Z.ltb_spec dim 0); lia).
  set (d := dim_of x dim) in *. set (M := rmax _ _).
  assert (Lg : is_largest (in_slice (shape x) d ix) (fun jx => Rabs (at_ x jx)) M).
  { unfold M. pose proof (rmax_slice (shape x) d ix (fun jx => Rabs (at_ x jx)) V Hr) as L. erewrite rmax_ext; [exact L|]. intros k Hk. cbv beta.
    cbn [tmap at_]. enough (S : forall d k ix, set_nth d k (set_nth d 0%nat ix) = set_nth d k ix) by now rewrite S.
    clear. induction d as [|d IH]; intros k [|i ix]; cbn [set_nth]; try reflexivity. f_equal. apply IH. }
  assert (Ha : Rabs (at_ x ix) <= M) by (apply Lg; split; auto; apply same_slice_refl).
  assert (FM : representable emin prec M). { destruct Lg as [(jx & Hj & <-) _]. apply generic_format_abs, Hf, Hj. }
  pose proof (Hpos ix M V Lg) as PM.
  assert (E0 : 0 <= nearest emin prec eps) by (rewrite <- (rnd_0 emin prec); now apply rnd_le).
  assert (P0 : 0 < nearest emin prec (M + nearest emin prec eps)).
  { pose proof (Rabs_pos (at_ x ix)). 
    assert (M <= nearest emin prec (M + nearest emin prec eps)) by (rewrite <- (rnd_id emin prec M FM) at 1; apply rnd_le; auto; lra).
    assert (nearest emin prec eps <= nearest emin prec (M + nearest emin prec eps)).
    { rewrite <- (rnd_id emin prec (nearest emin prec eps)) at 1 by (apply rnd_fmt; auto). apply rnd_le; auto. lra. }
    lra. }
  split; [apply rnd_fmt; auto|]. split.
  - apply Rabs_le_inv. apply quotient_le_1; auto. destruct (Rlt_le_dec 0 (M + eps)) as [|L]; auto. exfalso.
    pose proof (Rabs_pos (at_ x ix)). assert (M = 0) by lra. assert (eps = 0) by lra. subst eps. rewrite rnd_0 in PM. lra.
  - now apply quotient_error.
Qed.
Print Assumptions C54_max_abs.

(** ** Centred normalisation *)

Section Center.
Variables emin prec : Z.
Hypothesis Hprec : (0 < prec)%Z.
Hypothesis Hemin : (emin <= 0)%Z.
Local Instance prec_pos' : Prec_gt_0 prec := Hprec.
Notation rnd := (nearest emin prec).
Notation fmt := (representable emin prec).

Lemma fmt_double x : fmt x -> fmt (2 * x).
Proof.
  intros F. apply generic_format_FLT. apply FLT_format_generic in F; [|apply _]. destruct F as [f E M X]. exists (Float radix2 (Fnum f) (Fexp f + 1)); cbn; [|exact M|lia].
  rewrite E. unfold F2R. cbn [Fnum Fexp]. rewrite bpow_plus. change (bpow radix2 1) with 2. ring.
Qed.

(** A centred entry over the magnitude never exceeds 1. *)
Lemma center_le_1 a big small eps : fmt big -> a <= big -> small <= big -> 0 <= eps ->
  0 < rnd (rnd (big - rnd (1/2 * rnd (big + small))) + rnd eps) ->
  rnd (rnd (a - rnd (1/2 * rnd (big + small))) / rnd (rnd (big - rnd (1/2 * rnd (big + small))) + rnd eps)) <= 1.
Proof.
  intros Fb Ha Hs He. set (mid := rnd (1/2 * _)). intros Hd.
  set (mg := rnd (big - mid)) in *. set (d := rnd (mg + rnd eps)) in *.
  assert (E0 : 0 <= rnd eps) by (rewrite <- (rnd_0 emin prec); now apply rnd_le).
  assert (Hc : rnd (a - mid) <= mg) by (apply rnd_le; auto; lra).
  assert (Hm : mg <= d) by (rewrite <- (rnd_id emin prec mg) by (apply rnd_fmt; auto); apply rnd_le; auto; lra).
  rewrite <- (rnd_id emin prec 1) by (apply fmt_1; auto). apply rnd_le; auto.
  apply (Rmult_le_reg_r d); auto. unfold Rdiv. rewrite Rmult_assoc, Rinv_l by lra. lra.
Qed.
End Center.

(** Rounding to single precision, worked out. *)
Lemma float32_at x ex n : (-125 <= ex)%Z -> bpow radix2 (ex - 1) <= Rabs x < bpow radix2 ex ->
  Rabs (x * bpow radix2 (24 - ex) - IZR n) < / 2 -> float32 x = IZR n * bpow radix2 (ex - 24).
Proof.
  intros Hex Hx Hn. unfold float32, nearest, round, scaled_mantissa. rewrite (cexp_fexp radix2 _ x ex Hx). unfold FLT_exp.
  replace (Z.max (ex - 24) (-149)) with (ex - 24)%Z by lia. replace (- (ex - 24))%Z with (24 - ex)%Z by lia. rewrite (Znearest_imp _ _ n Hn). reflexivity.
Qed.
Lemma float32_int n : (Z.abs n < 2 ^ 24)%Z -> float32 (IZR n) = IZR n.
Proof.
  intros H. apply rnd_id. apply generic_format_FLT. exists (Float radix2 n 0); cbn; [unfold F2R; cbn; ring|exact H|lia].
Qed.

(** In real arithmetic centred values lie in [[-1,1]] (C25); in single precision two neighbouring numbers near 2^24 can
    have their rounded midrange at the larger one: the magnitude is then 0 and the smaller one is divided by eps alone. *)
Theorem C54_max_center_refuted : exists x y, shape x = [1; 2]%nat /\ (forall ix, representable (-149) 24 (at_ x ix)) /\
  fl_max_center_normalization float32 x (1 / 10 ^ 6) 1 = Ok y /\ at_ y [0; 0]%nat <= -500000.
Proof.
  set (x := mkT [1; 2]%nat (fun ix => if Nat.eqb (nth 1 ix 0%nat) 0 then 16777215 else 16777216)).
  assert (R1 : representable (-149) 24 16777215) by (apply generic_format_FLT; exists (Float radix2 16777215 0); cbn; [unfold F2R; cbn; ring|reflexivity|lia]).
  assert (R2 : representable (-149) 24 16777216) by (apply generic_format_FLT; exists (Float radix2 1 24); cbn; [unfold F2R; cbn; ring|reflexivity|lia]).
  eexists x, _. split; [reflexivity|]. split; [intros ix; cbn; destruct (Nat.eqb _ _); assumption|]. split; [reflexivity|].
  cbn [with_reduced at_ tmap2 x set_nth wrap Z.ltb Z.compare shape length Z.to_nat Pos.to_nat Pos.iter_op nth Nat.eqb Nat.add rmax rmin].
  change (Pos.to_nat 1) with 1%nat. cbn [set_nth nth Nat.eqb rmax rmin]. rewrite Rmax_right, Rmin_left by lra.
  assert (S1 : float32 (16777216 + 16777215) = 33554432).
  { replace (16777216 + 16777215) with 33554431 by ring. unfold float32, nearest, round, scaled_mantissa.
    rewrite (cexp_fexp radix2 _ 33554431 25); [|rewrite Rabs_right by lra; cbn; lra].
    change (FLT_exp (-149) 24 25) with 1%Z.
    assert (Fl : Zfloor (33554431 * bpow radix2 (- (1))) = 16777215%Z) by (apply Zfloor_imp; cbn; lra).
    assert (Ce : Zceil (33554431 * bpow radix2 (- (1))) = 16777216%Z) by (apply Zceil_imp; cbn; lra).
    unfold Znearest. rewrite Fl, Ce. replace (33554431 * bpow radix2 (- (1)) - 16777215) with (/ 2) by (cbn; lra).
    rewrite Rcompare_Eq by reflexivity. cbn. unfold F2R. cbn. ring. }
  rewrite S1. replace (1 / 2 * 33554432) with 16777216 by lra. rewrite (rnd_id (-149) 24 16777216 R2 : float32 16777216 = 16777216).
  replace (16777216 - 16777216) with (IZR 0) by ring. replace (16777215 - 16777216) with (IZR (-1)) by (cbn; ring).
  rewrite (float32_int 0), (float32_int (-1)) by reflexivity. rewrite Rplus_0_l. unfold float32.
  rewrite (rnd_id (-149) 24 (nearest (-149) 24 (1 / 10 ^ 6))) by (apply rnd_fmt; reflexivity).
  assert (B1 : representable (-149) 24 (bpow radix2 (-19))) by (apply generic_format_FLT_bpow; [reflexivity|lia]).
  assert (B0 : representable (-149) 24 (bpow radix2 (-20))) by (apply generic_format_FLT_bpow; [reflexivity|lia]).
  assert (U : nearest (-149) 24 (1 / 10 ^ 6) <= bpow radix2 (-19)).
  { rewrite <- (rnd_id (-149) 24 _ B1). apply rnd_le; [reflexivity|]. cbn. lra. }
  assert (L : bpow radix2 (-20) <= nearest (-149) 24 (1 / 10 ^ 6)).
  { rewrite <- (rnd_id (-149) 24 _ B0). apply rnd_le; [reflexivity|]. cbn. lra. }
  set (e := nearest (-149) 24 (1 / 10 ^ 6)) in *.
  assert (Pe : 0 < e) by (pose proof (bpow_gt_0 radix2 (-20)); lra).
  assert (Q : IZR (-1) / e <= IZR (- 524288)).
  { apply (Rmult_le_reg_r e); auto. unfold Rdiv. rewrite Rmult_assoc, Rinv_l by lra. cbn in U. lra. }
  apply (rnd_le (-149) 24 eq_refl) in Q. change (nearest (-149) 24 (IZR (-524288))) with (float32 (IZR (-524288))) in Q. rewrite (float32_int (-524288)) in Q by reflexivity. lra.
Qed.
Print Assumptions C54_max_center_refuted.

(** Only the lower bound fails: nothing ever exceeds 1. *)
Theorem C54_max_center_upper : forall emin prec x eps dim, (0 < prec)%Z -> (emin <= 0)%Z ->
  (forall ix, valid (shape x) ix -> representable emin prec (at_ x ix)) -> 0 <= eps ->
  dim_in_range x dim -> nth (dim_of x dim) (shape x) 0%nat <> 0%nat -> 0 < nearest emin prec eps ->
  exists y, fl_max_center_normalization (nearest emin prec) x eps dim = Ok y /\ shape y = shape x /\
    forall ix, valid (shape x) ix -> at_ y ix <= 1.
Proof.
  intros emin prec x eps dim Hp He Hf Heps Hd Hn Pe.
  unfold fl_max_center_normalization, reduce_keep. rewrite (dim_in_range_ok x dim Hd), dim_of_wrap.
  assert (Nz : Nat.eqb (nth (dim_of x dim) (shape x) 0%nat) 0 = false) by now apply Nat.eqb_neq. rewrite Nz. cbn [andb rbind].
  eexists. split; [reflexivity|]. split; [reflexivity|]. intros ix V. cbn [with_reduced at_ shape tmap2]. rewrite dim_of_wrap.
  assert (Hr : (dim_of x dim < length (shape x))%nat) by (destruct Hd as [A B]; unfold dim_of; destruct (Z.ltb_spec dim 0); lia).
  set (d := dim_of x dim) in *.
  assert (S : forall d k ix, set_nth d k (set_nth d 0%nat ix) = set_nth d k ix).
  { clear. induction d as [|d IH]; intros k [|i ix]; cbn [set_nth]; try reflexivity. f_equal. apply IH. }
  pose proof (rmax_slice (shape x) d ix (at_ x) V Hr) as LM. pose proof (rmin_slice (shape x) d ix (at_ x) V Hr) as Lm.
  rewrite (rmax_ext _ (fun k => at_ x (set_nth d k (set_nth d 0%nat ix))) (fun k => at_ x (set_nth d k ix))) by (intros; now rewrite S).
  rewrite (rmin_ext _ (fun k => at_ x (set_nth d k (set_nth d 0%nat ix))) (fun k => at_ x (set_nth d k ix))) by (intros; now rewrite S).
  set (M := rmax _ _) in *. set (m := rmin _ _) in *.
  assert (FM : representable emin prec M). { destruct LM as [(jx & Hj & <-) _]. apply Hf, Hj. }
  assert (Ha : at_ x ix <= M) by (apply LM; split; auto; apply same_slice_refl).
  assert (Hb : m <= at_ x ix) by (apply Lm; split; auto; apply same_slice_refl).
  apply center_le_1; auto; [lra|].
  set (mid := nearest emin prec (1 / 2 * _)).
  assert (mid <= M).
  { unfold mid. rewrite <- (rnd_id emin prec M FM) at 2. apply rnd_le; auto.
    assert (nearest emin prec (M + m) <= 2 * M); [|lra]. rewrite <- (rnd_id emin prec (2 * M)) by (apply fmt_double; auto). apply rnd_le; auto. lra. }
  assert (0 <= nearest emin prec (M - mid)) by (rewrite <- (rnd_0 emin prec); apply rnd_le; auto; lra).
  eapply Rlt_le_trans; [exact Pe|]. rewrite <- (rnd_id emin prec (nearest emin prec eps)) at 1 by (apply rnd_fmt; auto). apply rnd_le; auto. lra.
Qed.
Print Assumptions C54_max_center_upper.

(** ** Periodicity *)

(** Rounding does not take a folded value out of [[-p/2, p/2]]. *)
Theorem C63_periodic_range : forall emin prec x p, (0 < prec)%Z -> 0 < p -> representable emin prec (1/2 * p) ->
  Rabs (fl_make_periodic (nearest emin prec) x p) <= p / 2 /\ representable emin prec (fl_make_periodic (nearest emin prec) x p).
Proof.
  intros emin prec x p Hp P F2. split; [|apply rnd_fmt; auto].
  assert (F1 : representable emin prec p) by (replace p with (2 * (1/2 * p)) by lra; apply fmt_double; auto).
  assert (F0 : representable emin prec (2 * p)) by (apply fmt_double; auto).
  unfold fl_make_periodic. rewrite (rnd_id emin prec _ F2), (rnd_id emin prec _ F1), (rnd_id emin prec _ F0).
  set (a := nearest emin prec (x + _)).
  assert (R : 0 <= fl_remainder (nearest emin prec) a (2 * p) <= 2 * p).
  { unfold fl_remainder. set (m := a - 2 * p * IZR (Ztrunc (a / (2 * p)))).
    assert (B : Rabs m < 2 * p).
    { assert (E : m = 2 * p * (a / (2 * p) - IZR (Ztrunc (a / (2 * p))))) by (unfold m; field; lra).
      assert (D : Rabs (a / (2 * p) - IZR (Ztrunc (a / (2 * p)))) < 1).
      { set (t := a / (2 * p)). unfold Ztrunc. destruct (Rlt_bool_spec t 0).
        - pose proof (Zceil_ub t). pose proof (Zceil_lb t). apply Rabs_def1; lra.
        - pose proof (Zfloor_lb t). pose proof (Zfloor_ub t). apply Rabs_def1; lra. }
      rewrite E, Rabs_mult, (Rabs_right (2 * p)) by lra. pose proof (Rabs_pos (a / (2 * p) - IZR (Ztrunc (a / (2 * p))))). nra. }
    apply Rabs_def2 in B. destruct (Req_EM_T m 0); [lra|]. destruct (Rlt_dec (2 * p) 0); [lra|]. destruct (Rlt_dec m 0); [|lra].
    split; [rewrite <- (rnd_0 emin prec)|rewrite <- (rnd_id emin prec _ F0) at 2]; apply rnd_le; auto; lra. }
  set (r := fl_remainder _ _ _) in *. set (q := if Rlt_dec p r then _ else _).
  assert (B : 0 <= q <= p).
  { unfold q. destruct (Rlt_dec p r); [|lra]. split; [rewrite <- (rnd_0 emin prec); apply rnd_le; auto; lra|].
    apply Rle_trans with (nearest emin prec p); [apply rnd_le; auto; lra|]. rewrite (rnd_id emin prec _ F1). lra. }
  replace (p / 2) with (1/2 * p) by lra. apply rnd_abs_le; auto. apply Rabs_le. lra.
Qed.
Print Assumptions C63_periodic_range.

(** Single precision, three numbers, two of them tiny. *)
Example C54_case : exists y, fl_max_abs_normalization float32 (mkT [1; 3]%nat (fun ix => nth (nth 1 ix 0%nat) [3; 0; -5] 0)) (1 / 10 ^ 6) 1 = Ok y /\
  forall ix, valid [1; 3]%nat ix -> -1 <= at_ y ix <= 1.
Proof.
  set (x := mkT _ _). assert (F : forall n, (Z.abs n < 2 ^ 24)%Z -> representable (-149) 24 (IZR n)).
  { intros n H. apply generic_format_FLT. exists (Float radix2 n 0); cbn; [unfold F2R; cbn; ring|exact H|lia]. }
  destruct (C54_max_abs (-149) 24 x (1 / 10 ^ 6) 1) as (y & z & E & _ & _ & _ & V); try lia; try lra.
  - intros ix _. unfold x. cbn [at_]. destruct (nth 1 ix 0%nat) as [|[|[|[|]]]]; cbn [nth]; [apply (F 3%Z)|apply (F 0%Z)|apply (F (-5)%Z)|apply (F 0%Z)|apply (F 0%Z)]; reflexivity.
  - unfold dim_in_range. cbn. lia.
  - discriminate.
  - intros ix M Hv [_ L]. pose proof (Rle_trans _ _ _ (Rabs_pos _) (L ix (slice_refl _ _ _ Hv))).
    assert (B0 : representable (-149) 24 (bpow radix2 (-20))) by (apply generic_format_FLT_bpow; [reflexivity|lia]).
    assert (bpow radix2 (-20) <= nearest (-149) 24 (1 / 10 ^ 6)).
    { rewrite <- (rnd_id (-149) 24 _ B0). apply rnd_le; [reflexivity|]. cbn. lra. }
    pose proof (bpow_gt_0 radix2 (-20)). lra.
  - exists y. split; [exact E|]. intros ix Hv. now apply V.
Qed.
Example C63_case : Rabs (fl_make_periodic float32 (1 / 3) 2) <= 1.
Proof.
  replace 1 with (2 / 2) at 2 by lra. apply C63_periodic_range; [lia|lra|]. replace (1 / 2 * 2) with 1 by lra. apply fmt_1; lia.
Qed.
