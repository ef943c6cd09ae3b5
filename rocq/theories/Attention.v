(** * high_order_layers_torch/attentions.py.  Definitions only.

    Entries are real numbers, with two exceptions: a masked score is minus infinity, and the softmax of a row
    of minus infinities is NaN.  Module weights are arguments (their random initialisation is not modelled). *)
From Coq Require Import Reals List Bool Arith.
From Verif Require Import Spec Tensor Convolution Layers.
Import ListNotations.
Local Open Scope R_scope.

(** ** torch operations used here only *)

(** A score: a real number or minus infinity. *)
Inductive score := Fin (r : R) | NegInf.
(** A real number, or NaN (None), which is absorbing. *)
Definition num := option R.
Definition nplus (a b : num) : num := match a, b with Some a, Some b => Some (a + b) | _, _ => None end.
Definition nscale (a : num) (r : R) : num := match a with Some a => Some (a * r) | None => None end.
Fixpoint numsum (n : nat) (f : nat -> num) : num := match n with O => Some 0 | S m => nplus (numsum m f) (f m) end.

(** [F.softmax] of one row of [n] scores (the maximum torch subtracts first cancels in exact arithmetic). *)
Definition exp_score (s : score) : R := match s with Fin r => exp r | NegInf => 0 end.
Definition is_fin (s : score) : bool := match s with Fin _ => true | NegInf => false end.
Definition softmax_row (n : nat) (s : nat -> score) (j : nat) : num :=
  if existsb (fun i => is_fin (s i)) (seq 0 n)
  then Some (exp_score (s j) / rsum n (fun i => exp_score (s i)))
  else None.
(** [F.softmax(t, -1)]. *)
Definition softmax_last (t : tensor score) : tensor num :=
  mkT (shape t) (fun ix => softmax_row (last (shape t) 0%nat) (fun j => at_ t (removelast ix ++ [j])) (last ix 0%nat)).

(** [torch.bmm] of three-dimensional tensors, [torch.matmul] of four-dimensional ones (the leading dimensions
    are equal here: no broadcasting). [dot m f g] is the sum of the products of [m] entries. *)
Definition bmm_ {A} (dot : nat -> (nat -> A) -> (nat -> R) -> A) (x : tensor A) (y : tensor R) : res (tensor A) :=
  match shape x, shape y with
  | [b; n; m], [b'; m'; p] =>
      if (Nat.eqb b b' && Nat.eqb m m')%bool then
        Ok (mkT [b; n; p] (fun ix => match ix with
          | [i; r; c] => dot m (fun k => at_ x [i; r; k]) (fun k => at_ y [i; k; c])
          | _ => dot 0%nat (fun _ => at_ x []) (fun _ => at_ y []) end))
      else Err RuntimeError
  | _, _ => Err RuntimeError
  end.
Definition matmul4_ {A} (dot : nat -> (nat -> A) -> (nat -> R) -> A) (x : tensor A) (y : tensor R) : res (tensor A) :=
  match shape x, shape y with
  | [b; h; n; m], [b'; h'; m'; p] =>
      if (Nat.eqb b b' && Nat.eqb h h' && Nat.eqb m m')%bool then
        Ok (mkT [b; h; n; p] (fun ix => match ix with
          | [i; l; r; c] => dot m (fun k => at_ x [i; l; r; k]) (fun k => at_ y [i; l; k; c])
          | _ => dot 0%nat (fun _ => at_ x []) (fun _ => at_ y []) end))
      else Err RuntimeError
  | _, _ => Err RuntimeError
  end.
Definition dotR (m : nat) (f g : nat -> R) : R := rsum m (fun k => f k * g k).
Definition dotN (m : nat) (f : nat -> num) (g : nat -> R) : num := numsum m (fun k => nscale (f k) (g k)).
Definition bmm := bmm_ dotR.
Definition bmm_num := bmm_ dotN.
Definition matmul4 := matmul4_ dotR.
Definition matmul4_num := matmul4_ dotN.

(** [t.size(d)]. *)
Definition size {A} (d : nat) (t : tensor A) : res nat :=
  match nth_error (shape t) d with Some n => Ok n | None => Err IndexError end.
(** [t.permute(p)] of a tensor that must have [length p] dimensions (transpose of two of them included). *)
Definition permute_ {A} (p : list nat) (t : tensor A) : res (tensor A) :=
  if Nat.eqb (length (shape t)) (length p) then Ok (permute p t) else Err RuntimeError.
(** [t.unsqueeze(d)], d >= 0. *)
Definition unsqueeze {A} (d : nat) (t : tensor A) : tensor A :=
  mkT (firstn d (shape t) ++ 1%nat :: skipn d (shape t)) (fun ix => at_ t (firstn d ix ++ skipn (S d) ix)).
(** [t.squeeze(d)]: no effect unless the dimension has size 1. *)
Definition squeeze {A} (d : nat) (t : tensor A) : tensor A :=
  match nth_error (shape t) d with
  | Some 1%nat => mkT (firstn d (shape t) ++ skipn (S d) (shape t)) (fun ix => at_ t (firstn d ix ++ 0%nat :: skipn d ix))
  | _ => t
  end.
(** [t.repeat(1, n, 1, 1)] of a four-dimensional tensor. *)
Definition repeat1 {A} (n : nat) (t : tensor A) : tensor A :=
  match shape t with
  | [a; b; c; d] => mkT [a; n * b; c; d]%nat (fun ix => match ix with
                      | [i; j; k; l] => at_ t [i; j mod b; k; l]%nat | _ => at_ t ix end)
  | _ => t
  end.
(** [score.masked_fill_(mask, -inf)], same shape. *)
Definition mask_scores (mask : tensor bool) (s : tensor R) : tensor score :=
  mkT (shape s) (fun ix => if at_ mask ix then NegInf else Fin (at_ s ix)).
Definition scores (s : tensor R) : tensor score := tmap Fin s.
Definition zeros (s : list nat) : tensor R := mkT s (fun _ => 0).
Definition linear0 (weight x : tensor R) : res (tensor R) := Linear_forward weight (zeros [hd 0%nat (shape weight)]) x.
Definition sigmoid (x : R) : R := / (1 + exp (- x)).
(** [nn.Conv1d(.., kernel_size=3, padding=1)], with bias; three-dimensional inputs only. *)
Definition conv3 (w bias : tensor R) (x : tensor R) : res (tensor R) :=
  y <- conv1d w 1 1 1 x ;;
  Ok (mkT (shape y) (fun ix => at_ y ix + at_ bias [nth 1 ix 0%nat])).

(** ** Lines 29-43 [ScaledDotProductAttention]; [dim >= 1] is what the constructor got. *)
Definition scaled_dot_forward (dim : nat) (query key value : tensor R) (mask : option (tensor bool)) : res (tensor num * tensor num) :=
  kt <- permute_ [0; 2; 1]%nat key ;;
  s <- bmm query kt ;;
  let s := tmap (fun r => r / sqrt (INR dim)) s in
  sm <- match mask with
        | None => Ok (scores s)
        | Some m => m <- reshape (shape s) m ;; Ok (mask_scores m s)
        end ;;
  let attn := softmax_last sm in
  context <- bmm_num attn value ;;
  Ok (context, attn).

(** ** Lines 46-63 [DotProductAttention]. *)
Definition dot_product_forward (query value : tensor R) : res (tensor num * tensor num) :=
  batch_size <- size 0 query ;; hidden_dim <- size 2 query ;; input_size <- size 1 value ;;
  vt <- permute_ [0; 2; 1]%nat value ;;
  s <- bmm query vt ;;
  s <- view_infer [] [input_size] s ;;
  attn <- view_infer [batch_size] [input_size] (softmax_last (scores s)) ;;
  context <- bmm_num attn value ;;
  Ok (context, attn).

(** ** Lines 82-97 [AdditiveAttention]. *)
Record additive := mkAdditive {
  ad_query_proj : tensor R; ad_key_proj : tensor R; ad_bias : tensor R; ad_score_w : tensor R; ad_score_b : tensor R }.
Definition additive_forward (l : additive) (query key value : tensor R) : res (tensor num * tensor num) :=
  kp <- linear0 (ad_key_proj l) key ;;
  qp <- linear0 (ad_query_proj l) query ;;
  s <- broadcast2 Rplus kp qp ;;
  s <- broadcast2 Rplus s (ad_bias l) ;;
  s <- Linear_forward (ad_score_w l) (ad_score_b l) (tmap tanh s) ;;
  let s := squeeze (length (shape s) - 1) s in
  let attn := softmax_last (scores s) in
  context <- bmm_num (unsqueeze 1 attn) value ;;
  Ok (context, attn).

(** ** Lines 121-166 [LocationAwareAttention]. *)
Record location_aware := mkLocation {
  la_conv_w : tensor R; la_conv_b : tensor R; la_query_proj : tensor R; la_value_proj : tensor R;
  la_score_w : tensor R; la_score_b : tensor R; la_bias : tensor R; la_smoothing : bool }.
(** Lines 156-160. *)
Definition location_weights (smoothing : bool) (s : tensor R) : tensor num :=
  if smoothing then
    let s := tmap sigmoid s in
    mkT (shape s) (fun ix => Some (at_ s ix / rsum (last (shape s) 0%nat) (fun j => at_ s (removelast ix ++ [j]))))
  else softmax_last (scores s).
Definition location_aware_forward (l : location_aware) (query value : tensor R) (last_attn : option (tensor R)) : res (tensor num * tensor num) :=
  batch_size <- size 0 query ;; hidden_dim <- size 2 query ;; seq_len <- size 1 value ;;
  let last_attn := match last_attn with Some a => a | None => zeros [batch_size; seq_len] end in
  conv <- conv3 (la_conv_w l) (la_conv_b l) (unsqueeze 1 last_attn) ;;
  let conv_attn := permute [0; 2; 1]%nat conv in
  q <- view_infer [] [hidden_dim] query ;; q <- linear0 (la_query_proj l) q ;; q <- view_infer [batch_size] [hidden_dim] q ;;
  v <- view_infer [] [hidden_dim] value ;; v <- linear0 (la_value_proj l) v ;; v <- view_infer [batch_size] [hidden_dim] v ;;
  s <- broadcast2 Rplus q v ;;
  s <- broadcast2 Rplus s conv_attn ;;
  s <- broadcast2 Rplus s (la_bias l) ;;
  s <- Linear_forward (la_score_w l) (la_score_b l) (tmap tanh s) ;;
  let s := squeeze (length (shape s) - 1) s in
  let attn := location_weights (la_smoothing l) s in
  context <- bmm_num (unsqueeze 1 attn) value ;;
  Ok (squeeze 1 context, attn).

(** ** Lines 191-248 [MultiHeadLocationAwareAttention]. *)
Record mh_location := mkMHLocation {
  ml_num_heads : nat; ml_dim : nat; ml_conv_w : tensor R; ml_conv_b : tensor R; ml_loc_proj : tensor R;
  ml_query_proj : tensor R; ml_value_proj : tensor R; ml_score_w : tensor R; ml_score_b : tensor R; ml_bias : tensor R }.
Definition mh_location_forward (l : mh_location) (query value : tensor R) (last_attn : option (tensor R)) : res (tensor num * tensor num) :=
  let N := ml_num_heads l in let dim := ml_dim l in
  batch_size <- size 0 value ;; seq_len <- size 1 value ;;
  let last_attn := match last_attn with Some a => a | None => zeros [batch_size; N; seq_len] end in
  c <- conv3 (ml_conv_w l) (ml_conv_b l) last_attn ;;
  loc <- linear0 (ml_loc_proj l) (permute [0; 2; 1]%nat c) ;;
  let loc := tmap tanh loc in
  loc <- view_infer [] [seq_len; dim] (repeat1 N (unsqueeze 1 loc)) ;;
  q <- linear0 (ml_query_proj l) query ;; q <- view_infer [batch_size] [N; dim] q ;; q <- permute_ [0; 2; 1; 3]%nat q ;;
  v <- linear0 (ml_value_proj l) value ;; v <- view_infer [batch_size] [N; dim] v ;; v <- permute_ [0; 2; 1; 3]%nat v ;;
  q <- view_infer [] [1%nat; dim] q ;;
  v <- view_infer [] [seq_len; dim] v ;;
  s <- broadcast2 Rplus v q ;;
  s <- broadcast2 Rplus s loc ;;
  s <- broadcast2 Rplus s (ml_bias l) ;;
  s <- Linear_forward (ml_score_w l) (ml_score_b l) (tmap tanh s) ;;
  let attn := softmax_last (scores (squeeze 2 s)) in
  v <- reshape [batch_size; seq_len; N; dim] v ;;
  v <- permute_ [0; 2; 1; 3]%nat v ;;
  v <- view_infer [] [seq_len; dim] v ;;
  context <- bmm_num (unsqueeze 1 attn) v ;;
  context <- view_infer [batch_size] [(N * dim)%nat] context ;;
  attn <- view_infer [batch_size; N] [] attn ;;
  Ok (context, attn).

(** ** Lines 283-338 [MultiHeadAttention]. *)
Record multi_head := mkMultiHead {
  mh_num_heads : nat; mh_d_head : nat; mh_query_w : tensor R; mh_query_b : tensor R; mh_key_w : tensor R; mh_key_b : tensor R;
  mh_value_w : tensor R; mh_value_b : tensor R }.
(** Lines 300-324, one of query, key and value: project, split into heads, heads first. *)
Definition split_heads (N d batch_size : nat) (w b x : tensor R) : res (tensor R) :=
  x <- Linear_forward w b x ;;
  x <- view_infer [batch_size] [N; d] x ;;
  x <- permute_ [2; 0; 1; 3]%nat x ;;
  view_infer [(batch_size * N)%nat] [d] x.
(** Line 327: [mask.unsqueeze(1).repeat(1, num_heads, 1, 1)]; a mask that is not three-dimensional raises (repeat
    would accept fewer dimensions, the view after it then fails or reads a mask of the right total size: not modelled). *)
Definition repeat_mask (N : nat) (mask : tensor bool) : res (tensor bool) :=
  match shape mask with [_; _; _] => Ok (repeat1 N (unsqueeze 1 mask)) | _ => Err RuntimeError end.
Definition multi_head_forward (l : multi_head) (query key value : tensor R) (mask : option (tensor bool)) : res (tensor num * tensor num) :=
  let N := mh_num_heads l in let d := mh_d_head l in
  batch_size <- size 0 value ;;
  q <- split_heads N d batch_size (mh_query_w l) (mh_query_b l) query ;;
  k <- split_heads N d batch_size (mh_key_w l) (mh_key_b l) key ;;
  v <- split_heads N d batch_size (mh_value_w l) (mh_value_b l) value ;;
  mask <- match mask with None => Ok None | Some m => m <- repeat_mask N m ;; Ok (Some m) end ;;
  ca <- scaled_dot_forward d q k v mask ;;
  context <- view_infer [N; batch_size] [d] (fst ca) ;;
  context <- permute_ [1; 2; 0; 3]%nat context ;;
  context <- view_infer [batch_size] [(N * d)%nat] context ;;
  Ok (context, snd ca).

(** ** Lines 359-442 [RelativeMultiHeadAttention]; dropout in evaluation mode. *)

(** Lines 432-442: [torch.cat([zeros, pos_score], dim=-1)], view, drop the first row, view back. *)
Definition relative_shift (pos_score : tensor R) : res (tensor R) :=
  match shape pos_score with
  | [batch_size; num_heads; t1; t2] =>
      let padded := mkT [batch_size; num_heads; t1; t2 + 1]%nat (fun ix => match ix with
          | [b; h; i; O] => 0
          | [b; h; i; S j] => at_ pos_score [b; h; i; j]
          | _ => at_ pos_score ix end) in
      padded <- reshape [batch_size; num_heads; t2 + 1; t1]%nat padded ;;
      let dropped := mkT [batch_size; num_heads; t2; t1] (fun ix => match ix with
          | [b; h; i; j] => at_ padded [b; h; S i; j] | _ => at_ padded ix end) in
      reshape [batch_size; num_heads; t1; t2] dropped
  | _ => Err ValueError
  end.

Record relative := mkRelative {
  rl_d_model : nat; rl_num_heads : nat; rl_d_head : nat; rl_query_w : tensor R; rl_query_b : tensor R; rl_key_w : tensor R; rl_key_b : tensor R;
  rl_value_w : tensor R; rl_value_b : tensor R; rl_pos_w : tensor R; rl_u_bias : tensor R; rl_v_bias : tensor R;
  rl_out_w : tensor R; rl_out_b : tensor R }.
(** Lines 395-418: the scaled sum of content and position scores. *)
Definition relative_scores (l : relative) (query key pos_embedding : tensor R) (batch_size : nat) : res (tensor R) :=
  let N := rl_num_heads l in let d := rl_d_head l in
  q <- Linear_forward (rl_query_w l) (rl_query_b l) query ;; q <- view_infer [batch_size] [N; d] q ;;
  k <- Linear_forward (rl_key_w l) (rl_key_b l) key ;; k <- view_infer [batch_size] [N; d] k ;; k <- permute_ [0; 2; 1; 3]%nat k ;;
  p <- linear0 (rl_pos_w l) pos_embedding ;; p <- view_infer [batch_size] [N; d] p ;;
  qu <- broadcast2 Rplus q (rl_u_bias l) ;; qu <- permute_ [0; 2; 1; 3]%nat qu ;; kt <- permute_ [0; 1; 3; 2]%nat k ;;
  content_score <- matmul4 qu kt ;;
  qv <- broadcast2 Rplus q (rl_v_bias l) ;; qv <- permute_ [0; 2; 1; 3]%nat qv ;; pt <- permute_ [0; 2; 3; 1]%nat p ;;
  pos_score <- matmul4 qv pt ;;
  pos_score <- relative_shift pos_score ;;
  s <- broadcast2 Rplus content_score pos_score ;;
  Ok (tmap (fun r => r / sqrt (INR (rl_d_model l))) s).
(** Line 422: [score.masked_fill_(mask, -1e9)], the mask broadcast to the shape of the scores. *)
Definition fill_scores (mask : tensor bool) (s : tensor R) : res (tensor R) :=
  match bshape (shape mask) (shape s) with
  | Some s' => if list_eq_dec Nat.eq_dec s' (shape s)
               then Ok (mkT (shape s) (fun ix => if at_ mask (bindex (shape mask) ix) then - 10 ^ 9 else at_ s ix))
               else Err RuntimeError
  | None => Err RuntimeError
  end.
Definition relative_attention (l : relative) (query key value pos_embedding : tensor R) (mask : option (tensor bool)) :
    res (tensor num * tensor num) :=
  let N := rl_num_heads l in let d := rl_d_head l in
  batch_size <- size 0 value ;;
  s <- relative_scores l query key pos_embedding batch_size ;;
  v <- Linear_forward (rl_value_w l) (rl_value_b l) value ;; v <- view_infer [batch_size] [N; d] v ;; v <- permute_ [0; 2; 1; 3]%nat v ;;
  s <- match mask with None => Ok s | Some m => fill_scores (unsqueeze 1 m) s end ;;
  let attn := softmax_last (scores s) in
  context <- matmul4_num attn v ;;
  context <- permute_ [0; 2; 1; 3]%nat context ;;
  context <- view_infer [batch_size] [rl_d_model l] context ;;
  Ok (context, attn).

(** torch.nn.Linear on entries that may be NaN. *)
Definition Linear_num (weight bias : tensor R) (x : tensor num) : res (tensor num) :=
  match shape weight, rev (shape x) with
  | [o; i], i' :: _ =>
      if Nat.eqb i' i then
        Ok (mkT (removelast (shape x) ++ [o]) (fun ix =>
              nplus (dotN i (fun k => at_ x (removelast ix ++ [k])) (fun k => at_ weight [last ix 0%nat; k])) (Some (at_ bias [last ix 0%nat]))))
      else Err RuntimeError
  | _, _ => Err RuntimeError
  end.
(** Lines 385-430, the whole [forward]. *)
Definition relative_forward (l : relative) (query key value pos_embedding : tensor R) (mask : option (tensor bool)) : res (tensor num) :=
  ca <- relative_attention l query key value pos_embedding mask ;;
  Linear_num (rl_out_w l) (rl_out_b l) (fst ca).

(** ** Lines 468-535 [CustomizingAttention]. *)
Record customizing := mkCustomizing {
  cz_num_heads : nat; cz_dim : nat; cz_conv_w : tensor R; cz_conv_b : tensor R; cz_query_w : tensor R; cz_query_b : tensor R;
  cz_value_w : tensor R; cz_loc_w : tensor R; cz_bias : tensor R }.
(** Lines 522-535. *)
Definition get_loc_energy (l : customizing) (last_attn : tensor R) (batch_size v_len : nat) : res (tensor R) :=
  let N := cz_num_heads l in
  c <- conv3 (cz_conv_w l) (cz_conv_b l) (unsqueeze 1 last_attn) ;;
  c <- view_infer [batch_size; N] [v_len] c ;;
  c <- permute_ [0; 1; 3; 2]%nat c ;;
  e <- linear0 (cz_loc_w l) c ;;
  e <- reshape [batch_size; N; v_len; cz_dim l] e ;;
  e <- permute_ [0; 2; 1; 3]%nat e ;;
  reshape [batch_size; v_len; N * cz_dim l]%nat e.
(** Lines 482-520; line 512 calls scaled_dot_attn without the argument [value]. *)
Definition customizing_forward (l : customizing) (query value : tensor R) (last_attn : option (tensor R)) : res (tensor num * tensor num) :=
  let N := cz_num_heads l in let dim := cz_dim l in
  batch_size <- size 0 value ;; q_len <- size 1 query ;; v_len <- size 1 value ;;
  let last_attn := match last_attn with Some a => a | None => zeros [batch_size * N; v_len]%nat end in
  loc_energy <- get_loc_energy l last_attn batch_size v_len ;;
  q <- Linear_forward (cz_query_w l) (cz_query_b l) query ;; q <- reshape [batch_size; q_len; N * dim]%nat q ;;
  v <- linear0 (cz_value_w l) value ;; v <- reshape [batch_size; v_len; N * dim]%nat v ;;
  v <- broadcast2 Rplus v loc_energy ;; v <- broadcast2 Rplus v (cz_bias l) ;;
  q <- reshape [batch_size; q_len; N; dim] q ;; q <- permute_ [2; 0; 1; 3]%nat q ;;
  v <- reshape [batch_size; v_len; N; dim] v ;; v <- permute_ [2; 0; 1; 3]%nat v ;;
  q <- view_infer [] [q_len; dim] q ;;
  v <- view_infer [] [v_len; dim] v ;;
  Err TypeError.
