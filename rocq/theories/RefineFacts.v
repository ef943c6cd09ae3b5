(** * Facts about the in-place functions of [Refine.v]. *)
From Coq Require Import Reals ZArith List Bool Lia Lra Psatz.
From Verif Require Import Spec Tensor Utils LagrangePolynomial Basis PolynomialLayers Observe Refine
  SumFacts TensorFacts LagrangeFacts LayerFacts SegmentFacts LayerProofs.
Import ListNotations.
Local Open Scope R_scope.

(** ** Loops *)

Lemma mfor_inv {A} (P : nat -> A -> Prop) n body s : P 0%nat s ->
  (forall i s, (i < n)%nat -> P i s -> exists s', body i s = (s', None) /\ P (S i) s') ->
  exists s', mfor n body s = (s', None) /\ P n s'.
Proof.
  induction n; intros H0 Hb; cbn; [eauto|].
  destruct IHn as (s1 & E & H1); auto. rewrite E.
  destruct (Hb n s1 ltac:(lia) H1) as (s2 & E2 & H2). rewrite E2. eauto.
Qed.

(** A loop whose first iteration raises without writing. *)
Lemma mfor_fail {A} n body (s : A) e : (0 < n)%nat -> body 0%nat s = (s, Some e) -> mfor n body s = (s, Some e).
Proof.
  induction n; intros H E; [lia|]. cbn. destruct n; [cbn; exact E|].
  rewrite IHn by (auto; lia). reflexivity.
Qed.

(** Exceptions of a loop come from its body. *)
Lemma mfor_exn {A} n (body : nat -> A -> mut A) (Q : option exn -> Prop) : Q None ->
  (forall i s, (i < n)%nat -> Q (snd (body i s))) -> forall s, Q (snd (mfor n body s)).
Proof.
  intros HQ. induction n; intros Hb s; cbn; auto.
  assert (IH := IHn (fun i s Hi => Hb i s ltac:(lia)) s).
  destruct (mfor n body s) as [s' [e|]]; cbn in *; auto.
Qed.

(** ** Writing one segment *)

Definition wrote (w w' : tensor R) (a b lo n : nat) (V : nat -> R) : Prop :=
  shape w' = shape w /\
  (forall k, (k < n)%nat -> at_ w' [a; b; lo + k]%nat = V k) /\
  (forall ix, (forall k, (k < n)%nat -> ix <> [a; b; lo + k]%nat) -> at_ w' ix = at_ w ix).

Lemma assign3_wrote w a b lo n hi v d0 d1 d2 : shape w = [d0; d1; d2] -> (a < d0)%nat -> (b < d1)%nat ->
  hi = (lo + n)%nat -> (lo + n <= d2)%nat -> shape v = [n] ->
  exists w', assign3 w a b lo hi v = (w', None) /\ wrote w w' a b lo n (fun k => at_ v [k]).
Proof.
  intros Hw Ha Hb -> Hd Hv. unfold assign3. rewrite Hw.
  apply Nat.ltb_lt in Ha, Hb. rewrite Ha, Hb. cbn [andb].
  rewrite !Nat.min_l by lia. replace (lo + n - lo)%nat with n by lia.
  assert (Nv : numel v = n) by (unfold numel; rewrite Hv; cbn; lia).
  rewrite Nv, Nat.eqb_refl. cbn [orb].
  eexists; split; [reflexivity|]. split; [now rewrite Hw|]. split; cbn [at_].
  - intros k Hk. rewrite !Nat.eqb_refl. cbn [andb].
    destruct (Nat.leb_spec lo (lo + k)); [|lia]. destruct (Nat.ltb_spec (lo + k) (lo + n)); [|lia].
    cbn [andb]. do 3 f_equal. rewrite bc_id; lia.
  - intros ix Hix. destruct ix as [|a' [|b' [|p [|]]]]; auto.
    destruct (Nat.eqb_spec a' a) as [->|]; [|auto]. destruct (Nat.eqb_spec b' b) as [->|]; [|auto].
    destruct (Nat.leb_spec lo p); [|auto]. destruct (Nat.ltb_spec p (lo + n)); [|auto].
    exfalso. apply (Hix (p - lo)%nat); [lia|]. repeat f_equal. lia.
Qed.

Lemma slice3_ok w a b lo n hi d0 d1 d2 : shape w = [d0; d1; d2] -> (a < d0)%nat -> (b < d1)%nat ->
  hi = (lo + n)%nat -> (lo + n <= d2)%nat ->
  exists t, slice3 w a b lo hi = Ok t /\ shape t = [n] /\ forall k, at_ t [k] = at_ w [a; b; lo + k]%nat.
Proof.
  intros Hw Ha Hb -> Hd. unfold slice3. rewrite Hw. apply Nat.ltb_lt in Ha, Hb. rewrite Ha, Hb. cbn [andb].
  rewrite !Nat.min_l by lia. eexists; split; [reflexivity|]. split; [cbn; f_equal; lia|]. reflexivity.
Qed.

Lemma as_weights_ok t n : shape t = [n] ->
  exists w, as_weights t = Ok w /\ shape w = [1; 1; 1; n]%nat /\ forall k, (k < n)%nat -> at_ w [0; 0; 0; k]%nat = at_ t [k].
Proof.
  intros Ht. unfold as_weights, reshape, numel. rewrite Ht.
  replace (prodn [1; 1; 1; prodn [n]]%nat) with (prodn [n]) by (cbn; lia). rewrite Nat.eqb_refl.
  eexists; split; [reflexivity|]. split; [cbn; repeat f_equal; lia|].
  intros k Hk. cbn [at_]. f_equal.
  replace (ravel [1; 1; 1; prodn [n]]%nat [0; 0; 0; k]%nat) with (ravel [n] [k]) by (cbn; lia).
  apply unravel_ravel. cbn. lia.
Qed.

Lemma combine_one c f : combine_links (alpha_of c) 1 f = f 0%nat.
Proof. destruct c; cbn; ring. Qed.

Lemma column_ok (X : tensor R) n : shape X = [n] ->
  exists x, view_infer [] [1]%nat X = Ok x /\ shape x = [n; 1]%nat /\ forall k, at_ x [k; 0%nat] = at_ X [k].
Proof.
  intros HX. unfold view_infer. cbn [prodn Nat.mul Nat.add Nat.eqb].
  assert (N : numel X = n) by (unfold numel; rewrite HX; cbn; lia).
  rewrite N, Nat.mod_1_r, Nat.div_1_r. cbn [Nat.eqb app]. unfold reshape. rewrite N. cbn [prodn].
  replace (n * (1 * 1))%nat with n by lia. rewrite Nat.eqb_refl.
  eexists; split; [reflexivity|]. split; [reflexivity|]. intros k. cbn [at_]. f_equal. rewrite HX.
  cbn [unravel ravel prodn]. rewrite Nat.div_1_r. f_equal. lia.
Qed.

Lemma basis_X_shape n len : shape (lb_X (get_lagrange_basis n len)) = [n].
Proof.
  unfold get_lagrange_basis. destruct (Nat.eqb_spec n 1) as [->|]; [reflexivity|]. apply cheb_shape.
Qed.
Lemma basis_n n len : (1 <= n)%nat -> lb_n (get_lagrange_basis n len) = n.
Proof. unfold get_lagrange_basis. destruct (Nat.eqb_spec n 1) as [->|]; reflexivity. Qed.

Lemma flatten_col (y : tensor R) n : shape y = [n; 1]%nat ->
  shape (flatten y) = [n] /\ forall k, at_ (flatten y) [k] = at_ y [k; 0%nat].
Proof.
  intros Hy. split.
  - cbn. unfold numel. rewrite Hy. cbn. f_equal. lia.
  - intros k. unfold flatten. cbn [at_]. f_equal. rewrite Hy.
    cbn [unravel ravel prodn]. rewrite !Nat.div_1_r. rewrite !Nat.mul_1_r, Nat.add_0_r, Nat.mod_1_r. reflexivity.
Qed.

(** ** Filling every segment of every link *)

Lemma fill_all d0 d1 d2 S st n (body : nat -> nat -> nat -> tensor R -> mut (tensor R)) (T : nat -> nat -> nat -> R) :
  (forall a b i w, (a < d0)%nat -> (b < d1)%nat -> (i < S)%nat -> shape w = [d0; d1; d2] ->
     exists w', body a b i w = (w', None) /\ wrote w w' a b (i * st) n (fun k => T a b (i * st + k)%nat)) ->
  forall w0, shape w0 = [d0; d1; d2] ->
  exists w', mfor d0 (fun a => mfor d1 (fun b => mfor S (fun i => body a b i))) w0 = (w', None) /\
    shape w' = [d0; d1; d2] /\
    (forall a b i k, (a < d0)%nat -> (b < d1)%nat -> (i < S)%nat -> (k < n)%nat ->
      at_ w' [a; b; i * st + k]%nat = T a b (i * st + k)%nat) /\
    (forall ix, (forall a b i k, (i < S)%nat -> (k < n)%nat -> ix <> [a; b; i * st + k]%nat) ->
      at_ w' ix = at_ w0 ix).
Proof.
  intros Hbody w0 Hw0.
  set (fr := fun w : tensor R => forall ix, (forall a b i k, (i < S)%nat -> (k < n)%nat -> ix <> [a; b; i * st + k]%nat) ->
      at_ w ix = at_ w0 ix).
  (* one entry is right once its link has been processed, and stays right *)
  set (ok := fun (w : tensor R) a b => forall i k, (i < S)%nat -> (k < n)%nat ->
     at_ w [a; b; i * st + k]%nat = T a b (i * st + k)%nat).
  destruct (mfor_inv (fun a w => (shape w = [d0; d1; d2] /\ fr w) /\ forall a' b', (a' < a)%nat -> (b' < d1)%nat -> ok w a' b')
     d0 (fun a => mfor d1 (fun b => mfor S (fun i => body a b i))) w0) as (w' & E & (H1 & F) & H2).
  - repeat split; auto. intros; lia.
  - intros a w Ha (Hw & Hok).
    destruct (mfor_inv (fun b w => (shape w = [d0; d1; d2] /\ fr w) /\ (forall a' b', (a' < a)%nat -> (b' < d1)%nat -> ok w a' b')
        /\ forall b', (b' < b)%nat -> ok w a b') d1 (fun b => mfor S (fun i => body a b i)) w) as (w1 & E1 & H1 & H2 & H3).
    + destruct Hw; repeat split; auto. intros; lia.
    + intros b v Hb (Hv & Hv1 & Hv2).
      destruct (mfor_inv (fun i w => (shape w = [d0; d1; d2] /\ fr w) /\ (forall a' b', (a' < a)%nat -> (b' < d1)%nat -> ok w a' b')
          /\ (forall b', (b' < b)%nat -> ok w a b') /\
          forall i' k, (i' < i)%nat -> (k < n)%nat -> at_ w [a; b; i' * st + k]%nat = T a b (i' * st + k)%nat)
          S (fun i => body a b i) v) as (v1 & F1 & G1 & G2 & G3 & G4).
      * destruct Hv; repeat split; auto. intros; lia.
      * intros i u Hi ((Hu & Fu) & Hu1 & Hu2 & Hu3).
        destruct (Hbody a b i u Ha Hb Hi Hu) as (u' & Eu & Sh & W1 & W2).
        exists u'. split; auto. repeat split; [congruence| | | |].
        -- intros ix Hix. rewrite W2; [now apply Fu|]. intros k' Hk'. now apply Hix.
        -- intros a' b' Ha' Hb' i' k Hi' Hk. rewrite W2; [now apply Hu1|]. intros k' _ Q. injection Q. lia.
        -- intros b' Hb' i' k Hi' Hk. rewrite W2; [now apply Hu2|]. intros k' _ Q. injection Q. lia.
        -- intros i' k Hi' Hk.
           destruct (Nat.eq_dec i' i) as [->|Ni]; [now apply W1|].
           (* an earlier segment: unchanged, or overwritten by the same value *)
           destruct (le_lt_dec (i * st) (i' * st + k)) as [Q|Q].
           ++ destruct (lt_dec (i' * st + k - i * st) n) as [Q'|Q'].
              ** replace (i' * st + k)%nat with (i * st + (i' * st + k - i * st))%nat by lia. now apply W1.
              ** rewrite W2; [apply Hu3; lia|]. intros k' Hk' X. injection X. lia.
           ++ rewrite W2; [apply Hu3; lia|]. intros k' Hk' X. injection X. lia.
      * exists v1. split; auto. split; [exact G1|]. split; [exact G2|].
        intros b' Hb' i k Hi Hk. destruct (Nat.eq_dec b' b) as [->|]; [now apply G4|]. apply G3; auto; lia.
    + exists w1. split; auto. split; auto.
      intros a' b' Ha' Hb'. destruct (Nat.eq_dec a' a) as [->|]; [now apply H3|]. apply H2; auto; lia.
  - exists w'. split; auto. split; auto. split; [|exact F]. intros a b i k Ha Hb Hi Hk. now apply (H2 a b).
Qed.

(** Positions cover the whole weight vector. *)
Lemma pos_cover c n S p : (1 <= n)%nat -> (1 <= S)%nat -> (p < pw_num_weights c n S)%nat ->
  exists s k, (s < S)%nat /\ (k < n)%nat /\ p = weight_pos c n s k.
Proof.
  intros Hn HS Hp. unfold pw_num_weights in Hp.
  assert (Hw : forall s k, weight_pos c n s k = (s * (if is_continuous_class c then n - 1 else n) + k)%nat) by (now destruct c).
  destruct (is_continuous_class c).
  - destruct (Nat.eq_dec n 1) as [->|N1].
    + exists 0%nat, 0%nat. rewrite Hw. cbn in *. lia.
    + destruct (Nat.eq_dec p ((n - 1) * S)) as [->|Np].
      * exists (S - 1)%nat, (n - 1)%nat. rewrite Hw. repeat split; try lia. nia.
      * exists (p / (n - 1))%nat, (p mod (n - 1))%nat. rewrite Hw.
        pose proof (Nat.div_mod p (n - 1) ltac:(lia)). pose proof (Nat.mod_upper_bound p (n - 1) ltac:(lia)).
        repeat split; try lia. apply Nat.div_lt_upper_bound; lia.
  - exists (p / n)%nat, (p mod n)%nat. rewrite Hw.
    pose proof (Nat.div_mod p n ltac:(lia)). pose proof (Nat.mod_upper_bound p n ltac:(lia)).
    repeat split; try lia. apply Nat.div_lt_upper_bound; lia.
Qed.

(** The polynomial of a segment in its local coordinate. *)
Definition local_poly (l : piecewise) (o i s : nat) (t : R) : R := interp (pw_n l) 2 (seg_weight l o i s) t.

Lemma piece_local l o i s x : piece l o i s x = local_poly l o i s (x_local l x (Z.of_nat s)).
Proof. reflexivity. Qed.

Lemma local_match l o i s : (1 <= pw_n l)%nat -> is_continuous_class (pw_cls l) = true ->
  local_poly l o i s 1 = local_poly l o i (S s) (-1).
Proof.
  intros Hn Hc. unfold local_poly. destruct (Nat.eq_dec (pw_n l) 1) as [E|E].
  - rewrite E. unfold interp. simpl. rewrite !lag_1. f_equal. f_equal.
    unfold seg_weight. do 4 f_equal. unfold pw_stride. rewrite Hc, E. simpl. lia.
  - assert (A : 1 = node (pw_n l) 2 (pw_n l - 1)) by (rewrite node_2, cheb_last; auto; lia).
    assert (B : -1 = node (pw_n l) 2 0) by (rewrite node_2, cheb_first; auto; lia).
    rewrite B, A, !interp_node by (try lra; lia). now apply seg_weight_shared.
Qed.

(** ** p-refinement *)

Section Interpolate.
Variables li lo : piecewise.
Hypothesis Hi : held li.
Hypothesis Ho : held lo.
Hypothesis Hsum : sum_class (pw_cls li).
Hypothesis Hc : (pw_num_weights (pw_cls li) (pw_n lo) (pw_segments lo) <= pw_num_weights (pw_cls lo) (pw_n lo) (pw_segments lo))%nat.
Hypothesis HS : pw_segments lo = pw_segments li.
Hypothesis HI : pw_in lo = pw_in li.
Hypothesis HO : pw_out lo = pw_out li.
Hypothesis Hn2 : pw_cls li = PiecewisePolynomial -> (2 <= pw_n lo)%nat \/ pw_n li = 1%nat.

Let st n := pw_stride (pw_cls li) n.
Let e := if is_continuous_class (pw_cls li) then 1%nat else 0%nat.

Lemma offset_end_eq : offset_end (pw_cls li) = Some (st, e).
Proof. destruct Hsum as [E|E]; unfold st, e; rewrite E; reflexivity. Qed.

Lemma seg_end n i : (1 <= n)%nat -> ((i + 1) * st n + e = i * st n + n)%nat.
Proof. intros H. unfold st, e, pw_stride. destruct (is_continuous_class (pw_cls li)); lia. Qed.

Lemma interpolate_wrote : exists w', interpolate_polynomial_layer li lo = (w', None) /\
  shape w' = shape (pw_w lo) /\
  (forall o i s k, (o < pw_out li)%nat -> (i < pw_in li)%nat -> (s < pw_segments li)%nat -> (k < pw_n lo)%nat ->
    at_ w' [o; i; weight_pos (pw_cls li) (pw_n lo) s k] = local_poly li o i s (cheb (pw_n lo) k)) /\
  (forall ix, (forall o i s k, (s < pw_segments li)%nat -> (k < pw_n lo)%nat ->
      ix <> [o; i; weight_pos (pw_cls li) (pw_n lo) s k]) -> at_ w' ix = at_ (pw_w lo) ix).
Proof.
  pose proof (held_wf li Hi) as (Ni & Si & Ii & Oi & Pi & Wi).
  pose proof (held_wf lo Ho) as (No & So & Io & Oo & Po & Wo).
  unfold interpolate_polynomial_layer. rewrite HS, Nat.eqb_refl. cbn [negb].
  destruct (column_ok (lb_X (poly_basis (pw_poly lo))) (pw_n lo)) as (x & Ex & Sx & Vx).
  { rewrite Po, pw_poly_of_eq. cbn. apply basis_X_shape. }
  rewrite Ex. cbn [mbind]. rewrite offset_end_eq.
  assert (Nin : lb_n (poly_basis (pw_poly li)) = pw_n li) by (rewrite Pi, pw_poly_of_eq; cbn; now apply basis_n).
  assert (Nout : lb_n (poly_basis (pw_poly lo)) = pw_n lo) by (rewrite Po, pw_poly_of_eq; cbn; now apply basis_n).
  rewrite Nin, Nout. unfold dim. rewrite Wi. cbn [nth].
  (* target value of a position *)
  set (T := fun o i p =>
     if is_continuous_class (pw_cls li) then
       let s := (p / (pw_n lo - 1))%nat in let k := (p mod (pw_n lo - 1))%nat in
       if (s <? pw_segments li)%nat then local_poly li o i s (cheb (pw_n lo) k)
       else local_poly li o i (pw_segments li - 1) 1
     else local_poly li o i (p / pw_n lo)%nat (cheb (pw_n lo) (p mod pw_n lo)%nat)).
  assert (HT : forall o i s k, (s < pw_segments li)%nat -> (k < pw_n lo)%nat ->
      T o i (s * st (pw_n lo) + k)%nat = local_poly li o i s (cheb (pw_n lo) k)).
  { intros o i s k Hs Hk. unfold T, st, pw_stride. destruct (is_continuous_class (pw_cls li)) eqn:Ec.
    - assert (N2 : (2 <= pw_n lo)%nat \/ pw_n li = 1%nat) by (apply Hn2; destruct Hsum as [E|E]; rewrite E in *; [auto|discriminate]).
      destruct (Nat.eq_dec (pw_n lo) 1) as [N1|N1].
      { destruct N2 as [N2|N2]; [lia|]. replace k with 0%nat by lia. rewrite N1, Nat.sub_diag, Nat.mul_0_r.
        cbn [Nat.add Nat.div Nat.modulo]. destruct (Nat.ltb_spec 0 (pw_segments li)); [|lia].
        unfold local_poly, interp. rewrite N2. cbn [rsum]. rewrite !lag_1. do 2 f_equal.
        unfold seg_weight, pw_stride. rewrite Ec, N2, Nat.sub_diag, !Nat.mul_0_r. reflexivity. }
      clear N2. assert (N2 : (2 <= pw_n lo)%nat) by lia.
      destruct (Nat.eq_dec k (pw_n lo - 1)) as [->|Nk].
      + replace (s * (pw_n lo - 1) + (pw_n lo - 1))%nat with (S s * (pw_n lo - 1))%nat by lia.
        rewrite Nat.div_mul, Nat.mod_mul by lia. rewrite cheb_first, cheb_last by auto.
        destruct (Nat.ltb_spec (S s) (pw_segments li)).
        * symmetry. now apply local_match.
        * now replace (pw_segments li - 1)%nat with s by lia.
      + rewrite div_add_l, mod_add_l by lia. apply Nat.ltb_lt in Hs. now rewrite Hs.
    - rewrite div_add_l, mod_add_l by lia. reflexivity. }
  destruct (fill_all (pw_out li) (pw_in li) (pw_num_weights (pw_cls lo) (pw_n lo) (pw_segments lo)) (pw_segments li)
    (st (pw_n lo)) (pw_n lo)
    (fun a b i w => mbind (w0 <- slice3 (pw_w li) a b (i * st (pw_n li)) ((i + 1) * st (pw_n li) + e) ;;
                     w0 <- as_weights w0 ;; poly_interpolate (pw_poly li) x w0) w (fun w_b =>
              assign3 w a b (i * st (pw_n lo)) ((i + 1) * st (pw_n lo) + e) (flatten w_b))) T) with (w0 := pw_w lo)
    as (w' & E & Sh & V & U).
  - intros a b i w Ha Hb Hi' Hw.
    destruct (slice3_ok (pw_w li) a b (i * st (pw_n li)) (pw_n li) ((i + 1) * st (pw_n li) + e) (pw_out li) (pw_in li)
      (pw_num_weights (pw_cls li) (pw_n li) (pw_segments li))) as (t & Et & St & Vt); auto.
    { now apply seg_end. }
    { pose proof (weight_index_lt (pw_cls li) (pw_n li) (pw_segments li) i (pw_n li - 1) Ni Hi' ltac:(lia)). unfold st. lia. }
    rewrite Et. cbn [rbind].
    destruct (as_weights_ok t (pw_n li) St) as (w4 & E4 & S4 & V4). rewrite E4. cbn [rbind].
    destruct (poly_interpolate_gen (pw_cls li) (pw_n li) x w4 (pw_n lo) 1 1 1) as (y & Ey & Sy & Vy); auto.
    rewrite Pi, Ey. cbn [mbind].
    destruct (flatten_col y (pw_n lo) Sy) as [Sf Vf].
    destruct (assign3_wrote w a b (i * st (pw_n lo)) (pw_n lo) ((i + 1) * st (pw_n lo) + e) (flatten y) (pw_out li) (pw_in li)
      (pw_num_weights (pw_cls lo) (pw_n lo) (pw_segments lo))) as (w' & Ew & W1 & W2 & W3); auto.
    { now apply seg_end. }
    { rewrite HS in *. pose proof (weight_index_lt (pw_cls li) (pw_n lo) (pw_segments li) i (pw_n lo - 1) No Hi' ltac:(lia)). unfold st. lia. }
    exists w'. split; auto. split; auto. split; auto.
    intros k Hk. rewrite W2, Vf, Vy by (auto; lia). rewrite HT by auto. rewrite combine_one.
    unfold local_poly. rewrite Vx.
    replace (at_ (lb_X (poly_basis (pw_poly lo))) [k]) with (cheb (pw_n lo) k).
    2:{ rewrite Po, pw_poly_of_eq. cbn. symmetry. apply node_2. }
    apply interp_ext. intros j Hj. cbn. rewrite V4, Vt by auto. reflexivity.
  - rewrite Wo, HO, HI. reflexivity.
  - exists w'. split; [exact E|]. split; [rewrite Sh, Wo, HO, HI; reflexivity|]. split.
    + intros o i s k Ho' Hi' Hs Hk. rewrite weight_pos_eq. fold (st (pw_n lo)). rewrite V by auto. now apply HT.
    + intros ix Hix. apply U. intros a b i k Hi' Hk. specialize (Hix a b i k Hi' Hk). now rewrite weight_pos_eq in Hix.
Qed.

(** The refined layer computes the same pieces. *)
Lemma interpolate_pieces w' : pw_cls lo = pw_cls li -> (pw_n li <= pw_n lo)%nat -> shape w' = shape (pw_w lo) ->
  (forall o i s k, (o < pw_out li)%nat -> (i < pw_in li)%nat -> (s < pw_segments li)%nat -> (k < pw_n lo)%nat ->
    at_ w' [o; i; weight_pos (pw_cls li) (pw_n lo) s k] = local_poly li o i s (cheb (pw_n lo) k)) ->
  forall o i s t, (o < pw_out li)%nat -> (i < pw_in li)%nat -> (s < pw_segments li)%nat ->
    local_poly (with_w lo w') o i s t = local_poly li o i s t.
Proof.
  intros Hcc Hle Hsh HV o i s t Ho' Hi' Hs. unfold local_poly at 1. cbn [with_w pw_n].
  rewrite <- (interp_exact (pw_n lo) 2 (local_poly li o i s)).
  - apply interp_ext. intros k Hk. rewrite seg_weight_eq. cbn. rewrite Hcc, node_2. now apply HV.
  - lra.
  - apply (poly_lt_mono (pw_n li)); auto. apply interp_poly.
Qed.
End Interpolate.

(** ** h-refinement *)

Section Hrefine.
Variables li lo : piecewise.
Hypothesis Hi : held li.
Hypothesis Ho : held lo.
Hypothesis Hci : continuous_class (pw_cls li).
Hypothesis Hco : continuous_class (pw_cls lo).
Hypothesis HLi : pw_length li = 2.
Hypothesis HLo : pw_length lo = 2.
Hypothesis Hper : forall p, pw_periodicity li = Some p -> 2 <= p.
Hypothesis HI : pw_in lo = pw_in li.
Hypothesis HO : pw_out lo = pw_out li.
Hypothesis Hn2 : (2 <= pw_n lo)%nat.

Lemma per_id x : -1 <= x <= 1 -> apply_periodicity (pw_periodicity li) x = x.
Proof.
  intros Hx. destruct (pw_periodicity li) as [p|] eqn:E; cbn; auto.
  specialize (Hper p eq_refl). apply make_periodic_id; lra.
Qed.

Lemma seg_global_range S s t : (1 <= S)%nat -> (s < S)%nat -> -1 <= t <= 1 -> -1 <= seg_global S s t <= 1.
Proof.
  intros HS Hs Ht. unfold seg_global. assert (P := INR_pos S HS).
  assert (0 <= (t + 1) / INR S <= 2 / INR S).
  { split; [apply Rmult_le_pos; [lra|left; now apply Rinv_0_lt_compat]|].
    apply Rmult_le_compat_r; [left; now apply Rinv_0_lt_compat|lra]. }
  pose proof (knot_le S 0 s HS ltac:(lia)). rewrite knot_0 in *.
  pose proof (knot_le S (Datatypes.S s) S HS ltac:(lia)). rewrite knot_S, knot_succ in * by auto. lra.
Qed.

Lemma refine_wrote : exists w', refine_polynomial_layer li lo = (w', None) /\
  shape w' = shape (pw_w lo) /\
  forall o i s k, (o < pw_out li)%nat -> (i < pw_in li)%nat -> (s < pw_segments lo)%nat -> (k < pw_n lo)%nat ->
    at_ w' [o; i; s * (pw_n lo - 1) + k]%nat = link0 li o i (seg_global (pw_segments lo) s (cheb (pw_n lo) k)).
Proof.
  pose proof (held_wf li Hi) as (Ni & Si & Ii & Oi & Pi & Wi).
  pose proof (held_wf lo Ho) as (No & So & Io & Oo & Po & Wo).
  apply cont_class in Hci, Hco.
  unfold refine_polynomial_layer.
  destruct (column_ok (lb_X (poly_basis (pw_poly lo))) (pw_n lo)) as (x & Ex & Sx & Vx).
  { rewrite Po, pw_poly_of_eq. cbn. apply basis_X_shape. }
  rewrite Ex. cbn [mbind].
  assert (Vx' : forall k, at_ x [k; 0%nat] = cheb (pw_n lo) k).
  { intros k. rewrite Vx, Po, pw_poly_of_eq. cbn. apply node_2. }
  assert (Nin : lb_n (poly_basis (pw_poly li)) = pw_n li) by (rewrite Pi, pw_poly_of_eq; cbn; now apply basis_n).
  assert (Nout : lb_n (poly_basis (pw_poly lo)) = pw_n lo) by (rewrite Po, pw_poly_of_eq; cbn; now apply basis_n).
  rewrite Nin, Nout. unfold dim. rewrite Wi. cbn [nth].
  cbn [tmap tmap2 shape at_]. rewrite Sx. cbn [nth].
  set (T := fun o i p => let s := (p / (pw_n lo - 1))%nat in let k := (p mod (pw_n lo - 1))%nat in
     link0 li o i (seg_global (pw_segments lo) s (cheb (pw_n lo) k))).
  assert (HT : forall o i s k, (k < pw_n lo)%nat ->
      T o i (s * (pw_n lo - 1) + k)%nat = link0 li o i (seg_global (pw_segments lo) s (cheb (pw_n lo) k))).
  { intros o i s k Hk. unfold T. destruct (Nat.eq_dec k (pw_n lo - 1)) as [->|Nk].
    - replace (s * (pw_n lo - 1) + (pw_n lo - 1))%nat with (S s * (pw_n lo - 1))%nat by lia.
      rewrite Nat.div_mul, Nat.mod_mul by lia. rewrite cheb_first, cheb_last by auto. f_equal.
      unfold seg_global. rewrite knot_succ by auto. unfold Rdiv. ring.
    - rewrite div_add_l, mod_add_l by lia. reflexivity. }
  match goal with |- context [mfor (pw_out li) (fun a => mfor (pw_in li) (fun b => mfor (pw_segments lo) (fun i => @?B a b i)))] => set (body := B) end.
  destruct (fill_all (pw_out li) (pw_in li) (pw_num_weights (pw_cls lo) (pw_n lo) (pw_segments lo)) (pw_segments lo)
    (pw_n lo - 1) (pw_n lo) body T) with (w0 := pw_w lo) as (w' & E & Sh & V & _).
  - intros a b j w Ha Hb Hj Hw. unfold body. cbv beta.
    destruct (mfor_inv (fun m v => wrote w v a b (j * (pw_n lo - 1)) m (fun k => T a b (j * (pw_n lo - 1) + k)%nat))
      (pw_n lo) (fun index w_out =>
          mbind (w0 <- slice3 (pw_w li) a b (Z.to_nat (which_segment li (x_global lo (at_ x [index; 0%nat]) (Z.of_nat j))) * (pw_n li - 1))
                    ((Z.to_nat (which_segment li (x_global lo (at_ x [index; 0%nat]) (Z.of_nat j))) + 1) * (pw_n li - 1) + 1) ;;
                 w0 <- as_weights w0 ;;
                 poly_interpolate (pw_poly li) (mkT [1; 1]%nat (fun _ => x_local li (x_global lo (at_ x [index; 0%nat]) (Z.of_nat j)) (which_segment li (x_global lo (at_ x [index; 0%nat]) (Z.of_nat j))))) w0) w_out (fun w_b =>
          assign_at w_out a b (j * (pw_n lo - 1) + index) (at_ (flatten w_b) [0%nat]))) w) as (v & Ev & Wv).
    + split; auto. split; [intros; lia|]. auto.
    + intros k v Hk (Sv & V1 & V2).
      set (xg := x_global lo (at_ x [k; 0%nat]) (Z.of_nat j)).
      assert (Exg : xg = seg_global (pw_segments lo) j (cheb (pw_n lo) k)).
      { unfold xg. now rewrite x_global_seg, Vx' by auto. }
      assert (Rg : -1 <= xg <= 1) by (rewrite Exg; apply seg_global_range; auto; now apply cheb_range).
      assert (Eseg : which_segment li xg = Z.of_nat (seg li xg)) by (rewrite which_segment_seg, per_id by auto; auto).
      rewrite Eseg, Nat2Z.id.
      assert (Sl : (seg li xg < pw_segments li)%nat) by now apply seg_lt.
      destruct (slice3_ok (pw_w li) a b (seg li xg * (pw_n li - 1)) (pw_n li) ((seg li xg + 1) * (pw_n li - 1) + 1) (pw_out li) (pw_in li)
        (pw_num_weights (pw_cls li) (pw_n li) (pw_segments li))) as (t & Et & St & Vt); auto; [lia| |].
      { pose proof (weight_index_lt (pw_cls li) (pw_n li) (pw_segments li) (seg li xg) (pw_n li - 1) Ni Sl ltac:(lia)) as Q.
        unfold pw_stride in Q. rewrite Hci in Q. lia. }
      rewrite Et. cbn [rbind].
      destruct (as_weights_ok t (pw_n li) St) as (w4 & E4 & S4 & V4). rewrite E4. cbn [rbind].
      destruct (poly_interpolate_gen (pw_cls li) (pw_n li) (mkT [1; 1]%nat (fun _ => x_local li xg (Z.of_nat (seg li xg)))) w4 1 1 1 1) as (y & Ey & Sy & Vy); auto.
      rewrite Pi, Ey. cbn [mbind].
      destruct (flatten_col y 1 Sy) as [Sf Vf].
      assert (Val : at_ (flatten y) [0%nat] = T a b (j * (pw_n lo - 1) + k)%nat).
      { rewrite Vf, Vy by lia. rewrite HT by auto. rewrite combine_one, <- Exg. unfold link0, piece.
        cbn [at_]. apply interp_ext. intros q Hq. cbn. rewrite V4, Vt by auto.
        unfold seg_weight, pw_stride. now rewrite Hci. }
      unfold assign_at. rewrite Sv, Hw.
      assert (PB : (j * (pw_n lo - 1) + k < pw_num_weights (pw_cls lo) (pw_n lo) (pw_segments lo))%nat).
      { pose proof (weight_index_lt (pw_cls lo) (pw_n lo) (pw_segments lo) j k No Hj Hk) as Q.
        unfold pw_stride in Q. rewrite Hco in Q. exact Q. }
      apply Nat.ltb_lt in Ha, Hb, PB. rewrite Ha, Hb, PB. cbn [andb].
      eexists; split; [reflexivity|]. split; [cbn; auto|]. split.
      * intros q Hq. destruct (Nat.eq_dec q k) as [->|Nq].
        -- rewrite upd_same. exact Val.
        -- rewrite upd_other; [apply V1; lia|]. intros Q. injection Q. lia.
      * intros ix Hix. rewrite upd_other; [apply V2; intros q Hq; apply Hix; lia|]. apply Hix. lia.
    + exists v. split; [exact Ev|exact Wv].
  - rewrite Wo, HO, HI. reflexivity.
  - exists w'. split; [exact E|]. split; [rewrite Sh, Wo, HO, HI; reflexivity|].
    intros o i s k Ho' Hi' Hs Hk. rewrite V by auto. now apply HT.
Qed.
End Hrefine.

(** ** Equality of layer functions *)

Lemma same_function_links l l' : held l -> held l' -> pw_in l' = pw_in l -> pw_out l' = pw_out l ->
  alpha_of (pw_cls l') = alpha_of (pw_cls l) ->
  (forall o i x, (o < pw_out l)%nat -> (i < pw_in l)%nat -> link l' o i x = link l o i x) -> same_function l l'.
Proof.
  intros H H' HI HO Ha HL x B Hx.
  destruct (forward_rows l x B H Hx) as (y & E & S1 & V).
  destruct (forward_rows l' x B H') as (y' & E' & S2 & V'); [now rewrite HI|].
  exists y, y'. repeat split; auto; [rewrite S1, S2, HO; reflexivity|].
  intros ix Hix. rewrite S1 in Hix. apply valid2 in Hix. destruct Hix as (b & o & -> & Hb & Ho).
  rewrite V, V' by (rewrite ?HO; auto). rewrite !layer_out_eq by (rewrite ?HO; auto).
  rewrite Ha, HI. apply combine_ext. intros i Hi. symmetry. now apply HL.
Qed.

Lemma seg_same l l' x : pw_segments l' = pw_segments l -> pw_length l' = pw_length l -> seg l' x = seg l x.
Proof. intros E1 E2. unfold seg, segment_index, pw_half. rewrite E1, E2. reflexivity. Qed.
Lemma x_local_same l l' x z : pw_segments l' = pw_segments l -> pw_length l' = pw_length l ->
  x_local l' x z = x_local l x z.
Proof. intros E1 E2. unfold x_local, eta, pw_half. rewrite E1, E2. reflexivity. Qed.

(** The h-refined layer, when every segment is split evenly. *)
Lemma refine_link0 li lo w' m : held li -> held lo ->
  continuous_class (pw_cls li) -> continuous_class (pw_cls lo) ->
  pw_length li = 2 -> pw_length lo = 2 -> pw_segments lo = (m * pw_segments li)%nat ->
  (pw_n li <= pw_n lo)%nat ->
  (forall o i s k, (o < pw_out li)%nat -> (i < pw_in li)%nat -> (s < pw_segments lo)%nat -> (k < pw_n lo)%nat ->
    at_ w' [o; i; s * (pw_n lo - 1) + k]%nat = link0 li o i (seg_global (pw_segments lo) s (cheb (pw_n lo) k))) ->
  forall o i x, (o < pw_out li)%nat -> (i < pw_in li)%nat -> link0 (with_w lo w') o i x = link0 li o i x.
Proof.
  intros Hi Ho Hci Hco HLi HLo HS Hn HV o i x Ho' Hi'.
  pose proof (held_wf li Hi) as (Ni & Si & Ii & Oi & Pi & Wi).
  pose proof (held_wf lo Ho) as (No & So & Io & Oo & Po & Wo).
  apply cont_class in Hci, Hco.
  assert (Hm : (1 <= m)%nat) by (destruct m; lia).
  set (lw := with_w lo w'). set (s := seg lo x). set (si := (s / m)%nat).
  assert (Hs : (s < pw_segments lo)%nat) by now apply seg_lt.
  assert (Hsi : (si < pw_segments li)%nat) by (apply Nat.div_lt_upper_bound; lia).
  assert (HM := INR_pos m Hm). assert (HSi := INR_pos _ Si).
  (* knots of the source are knots of the target *)
  assert (K : forall q, knot (pw_segments li) q = knot (pw_segments lo) (m * q)).
  { intros q. unfold knot. rewrite HS, !mult_INR. field. lra. }
  assert (D : (m * si <= s < m * S si)%nat).
  { unfold si. pose proof (Nat.div_mod s m ltac:(lia)). pose proof (Nat.mod_upper_bound s m ltac:(lia)). lia. }
  (* the source uses segment si for all points of target segment s *)
  assert (Q : forall y, in_segment (pw_segments lo) s y -> seg li y = si).
  { intros y (_ & A & B). apply seg_spec; auto. split; [auto|split].
    - destruct (Nat.eq_dec si 0) as [|Nz]; [now left|right].
      destruct A as [A|A]; [lia|]. rewrite K. eapply Rle_trans; [|exact A]. apply knot_le; auto; lia.
    - destruct (Nat.eq_dec (pw_segments li) (S si)) as [|Nz]; [now left|right].
      destruct B as [B|B]; [nia|]. rewrite K. eapply Rlt_le_trans; [exact B|]. apply knot_le; auto; lia. }
  assert (E1 : link0 li o i x = piece li o i si x) by (unfold link0; rewrite Q by (now apply seg_in); auto).
  rewrite E1. unfold link0. change (seg lw x) with s.
  apply (poly_unique (pw_n lo) (piece lw o i s) (piece li o i si)
     (fun k => seg_global (pw_segments lo) s (cheb (pw_n lo) k))).
  - apply (piece_poly lw); auto.
  - apply (poly_lt_mono (pw_n li)); auto. now apply piece_poly.
  - intros a b Ha Hb Hab. unfold seg_global. intros Eq.
    assert (Q2 : cheb (pw_n lo) a = cheb (pw_n lo) b).
    { assert (P := INR_pos _ So). assert (X : (cheb (pw_n lo) a + 1) / INR (pw_segments lo) = (cheb (pw_n lo) b + 1) / INR (pw_segments lo)) by lra.
      apply (f_equal (fun r => r * INR (pw_segments lo))) in X. unfold Rdiv in X.
      rewrite !Rmult_assoc, !Rinv_l in X by lra. lra. }
    destruct (Nat.lt_trichotomy a b) as [L|[L|L]]; [| |]; auto.
    + pose proof (cheb_increasing (pw_n lo) a b L Hb). lra.
    + pose proof (cheb_increasing (pw_n lo) b a L Ha). lra.
  - intros k Hk.
    transitivity (seg_weight lw o i s k).
    { rewrite <- (x_global_seg lw) by auto. apply (piece_node lw); auto. cbn. lra. }
    rewrite seg_weight_eq, weight_pos_eq. cbn [lw with_w pw_w pw_cls pw_n]. unfold pw_stride. rewrite Hco.
    rewrite HV by auto.
    destruct (Nat.eq_dec (pw_n lo) 1) as [N1|N1].
    + unfold link0. rewrite Q; auto. apply in_segment_global; auto. rewrite N1, cheb_1. lra.
    + destruct (Nat.eq_dec k (pw_n lo - 1)) as [->|Nk].
      * (* the right end of the segment *)
        rewrite cheb_last by lia.
        assert (G : seg_global (pw_segments lo) s 1 = knot (pw_segments lo) (S s)).
        { unfold seg_global. rewrite knot_succ by auto. lra. }
        rewrite G. destruct (Nat.eq_dec (S s) (m * S si)) as [T|T].
        -- rewrite T, <- K. destruct (Nat.eq_dec (S si) (pw_segments li)) as [U|U].
           ++ unfold link0. replace (seg li (knot (pw_segments li) (S si))) with si; auto. symmetry.
              apply seg_spec; auto. split; [auto|split; [right|left; auto]]. apply knot_le; auto.
           ++ rewrite piece_match by auto. unfold link0.
              replace (seg li (knot (pw_segments li) (S si))) with (S si); auto. symmetry.
              apply seg_spec; auto; [lia|]. split; [lia|split; [right; lra|right; apply knot_lt; auto]].
        -- unfold link0. replace (seg li (knot (pw_segments lo) (S s))) with si; auto. symmetry.
           apply seg_spec; auto. split; [auto|split].
           ++ right. rewrite K. apply knot_le; auto. lia.
           ++ right. rewrite K. apply knot_lt; auto. lia.
      * unfold link0. rewrite Q; auto. apply in_segment_global; auto.
        pose proof (cheb_range (pw_n lo) k Hk). pose proof (cheb_increasing (pw_n lo) k (pw_n lo - 1) ltac:(lia) ltac:(lia)).
        rewrite cheb_last in * by lia. lra.
Qed.

(** ** Smoothing *)

Section Smooth.
Variables (l : piecewise) (f : R).
Hypothesis H : held l.
Hypothesis Hc : discontinuous_class (pw_cls l).
Hypothesis Hn : (2 <= pw_n l)%nat.
Let n := pw_n l.
Let w := pw_w l.

Lemma smooth_spec : exists w', smooth_discontinuous_layer l f = (w', None) /\ shape w' = shape w /\
  (forall o i s, (S s < pw_segments l)%nat ->
     let a := at_ w [o; i; s * n + (n - 1)]%nat in let b := at_ w [o; i; S s * n]%nat in
     at_ w' [o; i; s * n + (n - 1)]%nat = a - f / 2 * (a - b) /\ at_ w' [o; i; S s * n]%nat = b + f / 2 * (a - b)) /\
  (forall ix, (forall o i s, (S s < pw_segments l)%nat -> ix <> [o; i; s * n + (n - 1)]%nat /\ ix <> [o; i; S s * n]%nat) ->
     at_ w' ix = at_ w ix).
Proof.
  pose proof (held_wf l H) as (Nl & Sl & Il & Ol & Pl & Wl). apply disc_class in Hc.
  unfold smooth_discontinuous_layer. rewrite Hc. fold n w. fold n in Hn.
  set (S := pw_segments l) in *.
  assert (St : (dim w 2 - 1 = n * S - 1)%nat).
  { unfold dim, w. rewrite Wl. cbn [nth]. unfold pw_num_weights. rewrite Hc. fold n S. lia. }
  rewrite St. clear St.
  assert (Q : S = 1%nat \/ exists q, S = (2 + q)%nat) by (clear - Sl; destruct S as [|[|q]]; [lia|auto|right; now exists q]).
  assert (L1 : slice_len (n - 1) (n * S - 1) n = (S - 1)%nat).
  { unfold slice_len. clearbody S n. clear - Q Hn. destruct Q as [->|[q ->]].
    - destruct (Nat.leb_spec (n * 1 - 1) (n - 1)); lia.
    - destruct (Nat.leb_spec (n * (2 + q) - 1) (n - 1)); [nia|].
      replace (n * (2 + q) - 1 - (n - 1) - 1)%nat with (q * n + (n - 1))%nat by nia. rewrite div_add_l by lia. lia. }
  assert (L2 : slice_len n (n * S - 1) n = (S - 1)%nat).
  { unfold slice_len. clearbody S n. clear - Q Hn. destruct Q as [->|[q ->]].
    - destruct (Nat.leb_spec (n * 1 - 1) n); lia.
    - destruct (Nat.leb_spec (n * (2 + q) - 1) n); [nia|].
      replace (n * (2 + q) - 1 - n - 1)%nat with (q * n + (n - 2))%nat by nia. rewrite div_add_l by lia. lia. }
  clear Q.
  rewrite L1, L2, !bsize_refl. unfold assign_strided at 1. rewrite L1, Nat.eqb_refl. cbn [orb].
  unfold assign_strided. rewrite L2, Nat.eqb_refl. cbn [orb].
  eexists; split; [reflexivity|]. split; [reflexivity|].
  split.
  - intros o i s Hs. cbn [at_].
    (* left position *)
    replace (s * n + (n - 1) - (n - 1))%nat with (s * n + 0)%nat by lia.
    replace (s * n + n - 1)%nat with (s * n + (n - 1))%nat by lia.
    destruct (Nat.leb_spec (n - 1) (s * n + (n - 1))); [|lia].
    destruct (Nat.ltb_spec (s * n + (n - 1)) (n * S - 1)); [|nia].
    rewrite div_add_l, mod_add_l by lia. cbn [andb Nat.eqb].
    replace (Datatypes.S s * n - n)%nat with (s * n + 0)%nat by lia.
    rewrite div_add_l, mod_add_l by lia.
    destruct (Nat.leb_spec n (Datatypes.S s * n)); [|lia].
    destruct (Nat.ltb_spec (Datatypes.S s * n) (n * S - 1)); [|nia]. cbn [andb Nat.eqb].
    assert (B : bc (S - 1) s = s) by (apply bc_id; lia). rewrite !B.
    assert (X1 : ((n <=? s * n + (n - 1)) && true && ((s * n + (n - 1) - n) mod n =? 0))%nat%bool = false).
    { destruct s; [cbn [Nat.mul Nat.add]; destruct (Nat.leb_spec n (n - 1)); [lia|reflexivity]|].
      replace (Datatypes.S s * n + (n - 1) - n)%nat with (s * n + (n - 1))%nat by lia.
      rewrite mod_add_l by lia. destruct (Nat.eqb_spec (n - 1) 0); [lia|apply andb_false_r]. }
    rewrite X1. clear X1.
    replace (n - 1 + s * n)%nat with (s * n + (n - 1))%nat by lia.
    replace (n + s * n)%nat with (Datatypes.S s * n)%nat by lia.
    assert (X2 : ((Datatypes.S s * n - (n - 1)) mod n =? 0)%nat = false).
    { replace (Datatypes.S s * n - (n - 1))%nat with (s * n + 1)%nat by lia. rewrite mod_add_l by lia. reflexivity. }
    rewrite X2, !andb_false_r. split; field.
  - intros ix Hix. cbn [at_]. destruct ix as [|o [|i [|p [|]]]]; auto.
    destruct ((n <=? p)%nat && (p <? n * S - 1)%nat && ((p - n) mod n =? 0)%nat) eqn:E.
    + exfalso. rewrite !Bool.andb_true_iff, Nat.leb_le, Nat.ltb_lt, Nat.eqb_eq in E. destruct E as [[E1 E2] E3].
      pose proof (Nat.div_mod (p - n) n ltac:(lia)). rewrite E3 in *.
      destruct (Hix o i ((p - n) / n)%nat) as [_ X]; [nia|]. apply X. repeat f_equal. nia.
    + destruct ((n - 1 <=? p)%nat && (p <? n * S - 1)%nat && ((p - (n - 1)) mod n =? 0)%nat) eqn:E'; auto.
      exfalso. rewrite !Bool.andb_true_iff, Nat.leb_le, Nat.ltb_lt, Nat.eqb_eq in E'. destruct E' as [[E1 E2] E3].
      pose proof (Nat.div_mod (p - (n - 1)) n ltac:(lia)). rewrite E3 in *.
      destruct (Hix o i ((p - (n - 1)) / n)%nat) as [X _]; [nia|]. apply X. repeat f_equal. nia.
Qed.
End Smooth.

(** ** Linear initialisation *)

Lemma initialize_wrote l ms mo ra rb : held l -> pw_cls l <> PiecewisePolynomialProd -> pw_length l = 2 ->
  (2 <= pw_n l)%nat ->
  exists w', initialize_polynomial_layer l ms mo ra rb = (w', None) /\ shape w' = shape (pw_w l) /\
  forall o i s k, (o < pw_out l)%nat -> (i < pw_in l)%nat -> (s < pw_segments l)%nat -> (k < pw_n l)%nat ->
    at_ w' [o; i; weight_pos (pw_cls l) (pw_n l) s k] =
    ms * (ra o i * 2 - 1) * seg_global (pw_segments l) s (cheb (pw_n l) k) + mo * (rb o i * 2 - 1).
Proof.
  intros H Hc HL Hn2. pose proof (held_wf l H) as (Nl & Sl & Il & Ol & Pl & Wl).
  unfold initialize_polynomial_layer.
  destruct (column_ok (lb_X (poly_basis (pw_poly l))) (pw_n l)) as (x & Ex & Sx & Vx).
  { rewrite Pl, pw_poly_of_eq. cbn. apply basis_X_shape. }
  rewrite Ex. cbn [mbind].
  assert (Vx' : forall k, at_ x [k; 0%nat] = cheb (pw_n l) k).
  { intros k. rewrite Vx, Pl, pw_poly_of_eq. cbn. apply node_2. }
  assert (Nin : lb_n (poly_basis (pw_poly l)) = pw_n l) by (rewrite Pl, pw_poly_of_eq; cbn; now apply basis_n).
  rewrite Nin. unfold dim. rewrite Wl. cbn [nth].
  set (st := pw_stride (pw_cls l) (pw_n l)).
  set (e := if is_continuous_class (pw_cls l) then 1%nat else 0%nat).
  set (body := fun a b j w => assign3 w a b (j * st) ((j + 1) * st + e)
     (flatten (tmap (fun x => ms * (ra a b * 2 - 1) * x + mo * (rb a b * 2 - 1)) (tmap (fun t => x_global l t (Z.of_nat j)) x)))).
  set (T := fun o i p => ms * (ra o i * 2 - 1) * (
     seg_global (pw_segments l) (p / st) (cheb (pw_n l) (p mod st))) + mo * (rb o i * 2 - 1)).
  assert (HT : forall o i s k, (k < pw_n l)%nat -> T o i (s * st + k)%nat =
     ms * (ra o i * 2 - 1) * seg_global (pw_segments l) s (cheb (pw_n l) k) + mo * (rb o i * 2 - 1)).
  { intros o i s k Hk. unfold T, st, pw_stride. destruct (is_continuous_class (pw_cls l)).
    - destruct (Nat.eq_dec k (pw_n l - 1)) as [->|Nk].
      + replace (s * (pw_n l - 1) + (pw_n l - 1))%nat with (S s * (pw_n l - 1))%nat by lia.
        rewrite Nat.div_mul, Nat.mod_mul by lia. rewrite cheb_first, cheb_last by auto.
        unfold seg_global. rewrite knot_succ by auto. do 2 f_equal. lra.
      + rewrite div_add_l, mod_add_l by lia. reflexivity.
    - rewrite div_add_l, mod_add_l by lia. reflexivity. }
  assert (Hseg : forall i, ((i + 1) * st + e = i * st + pw_n l)%nat).
  { intros i. unfold st, e, pw_stride. destruct (is_continuous_class (pw_cls l)); lia. }
  destruct (fill_all (pw_out l) (pw_in l) (pw_num_weights (pw_cls l) (pw_n l) (pw_segments l)) (pw_segments l)
    st (pw_n l) body T) with (w0 := pw_w l) as (w' & E & Sh & V & _); auto.
  - intros a b j w Ha Hb Hj Hw. unfold body.
    match goal with |- context [flatten ?t] => set (y := t) end.
    destruct (flatten_col y (pw_n l)) as [Sf Vf]; [exact Sx|].
    destruct (assign3_wrote w a b (j * st) (pw_n l) ((j + 1) * st + e) (flatten y) (pw_out l) (pw_in l)
      (pw_num_weights (pw_cls l) (pw_n l) (pw_segments l))) as (w' & Ew & W1 & W2 & W3); auto.
    { pose proof (weight_index_lt (pw_cls l) (pw_n l) (pw_segments l) j (pw_n l - 1) Nl Hj ltac:(lia)). unfold st. lia. }
    exists w'. split; auto. split; auto. split; auto.
    intros k Hk. rewrite W2, Vf, HT by auto. unfold y. cbn [tmap at_]. rewrite Vx', x_global_seg by auto. reflexivity.
  - exists w'. split; [|split].
    + rewrite <- E. unfold body, st, e, pw_stride. destruct (pw_cls l); try reflexivity. contradiction.
    + now rewrite Sh.
    + intros o i s k Ho Hi Hs Hk. rewrite weight_pos_eq. fold st. rewrite V by auto. now apply HT.
Qed.
