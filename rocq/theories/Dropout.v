(** * HighOrderMLP and RelativeMultiHeadAttention in training mode: nn.Dropout.  Definitions only.

    Everywhere else modules are in evaluation mode, where [nn.Dropout] is the identity.  Here the dropout modules of a
    [HighOrderMLP] draw: the drawn decisions (which entries are kept, at each use of the module) are an argument.  The other
    modules behave as in evaluation mode. *)
From Coq Require Import Reals List.
From Verif Require Import Spec Tensor Layers Networks Attention.
Import ListNotations.
Local Open Scope R_scope.

(** torch.nn.functional.dropout with [training=True]: entries that are not kept become zero, the others are divided by [1-p]
    (for [p = 1], where nothing is kept, everything is multiplied by zero). *)
Definition dropout_scale (p : R) : R := if Req_EM_T p 1 then 0 else / (1 - p).
Definition dropout_train (p : R) (keep : list nat -> bool) (x : tensor R) : tensor R :=
  mkT (shape x) (fun ix => (if keep ix then at_ x ix else 0) * dropout_scale p).

(** layers.py 166-167: the outputs of the modules of a SumLayer, in order, on one input. *)
Fixpoint train_outputs (h : heap) (dl : nat) (p : R) (keep : nat -> list nat -> bool) (fs : list nat) (x : tensor R) : res (list (tensor R)) :=
  match fs with
  | [] => Ok []
  | f :: fs =>
      if Nat.eqb f dl then ys <- train_outputs h dl p (fun j => keep (S j)) fs x ;; Ok (dropout_train p (keep O) x :: ys)
      else y <- call h f x ;; ys <- train_outputs h dl p keep fs x ;; Ok (y :: ys)
  end.

(** networks.py 241-243, 257-259, 269-270, 285: [nn.Sequential] with the shared dropout module [dl]; [keep j] are the decisions of
    its [j]-th use.  With [resnet=True] and [dropout > 0] the module is also the second one of each SumLayer (line 259), so
    SumLayers are not nested. *)
Fixpoint train_run (h : heap) (dl : nat) (p : R) (keep : nat -> list nat -> bool) (L : list nat) (x : tensor R) : res (tensor R) :=
  match L with
  | [] => Ok x
  | k :: L =>
      if Nat.eqb k dl then train_run h dl p (fun j => keep (S j)) L (dropout_train p (keep O) x)
      else match get h k with
           | OSum fs =>
               ys <- train_outputs h dl p keep fs x ;; y <- sum_outputs ys ;;
               train_run h dl p (fun j => keep (count_occ Nat.eq_dec fs dl + j)%nat) L y
           | _ => y <- call h k x ;; train_run h dl p keep L y
           end
  end.

(** networks.py 220, 287-288 [HighOrderMLP.forward] in training mode, [p] the dropout argument. *)
Definition train_forward (h : heap) (net : nat) (p : R) (keep : nat -> list nat -> bool) (x : tensor R) : res (tensor R) :=
  match get h net with
  | OMLP dl _ _ m => match get h m with OSequential L => train_run h dl p keep L x | _ => Err AttributeError end
  | _ => Err AttributeError
  end.

(** ** attentions.py 385-430 [RelativeMultiHeadAttention.forward] in training mode: line 425 drops attention weights, [p] is
    [dropout_p], [keep] the decisions.  The rest is [relative_attention] and [relative_forward] of Attention.v. *)
Definition dropout_num (p : R) (keep : list nat -> bool) (x : tensor num) : tensor num :=
  mkT (shape x) (fun ix => nscale (at_ x ix) ((if keep ix then 1 else 0) * dropout_scale p)).
Definition relative_train (l : relative) (p : R) (keep : list nat -> bool) (query key value pos_embedding : tensor R) (mask : option (tensor bool)) :
    res (tensor num) :=
  let N := rl_num_heads l in let d := rl_d_head l in
  batch_size <- size 0 value ;;
  s <- relative_scores l query key pos_embedding batch_size ;;
  v <- Linear_forward (rl_value_w l) (rl_value_b l) value ;; v <- view_infer [batch_size] [N; d] v ;; v <- permute_ [0; 2; 1; 3]%nat v ;;
  s <- match mask with None => Ok s | Some m => fill_scores (unsqueeze 1 m) s end ;;
  let attn := softmax_last (scores s) in
  let attn := dropout_num p keep attn in
  context <- matmul4_num attn v ;;
  context <- permute_ [0; 2; 1; 3]%nat context ;;
  context <- view_infer [batch_size] [rl_d_model l] context ;;
  Linear_num (rl_out_w l) (rl_out_b l) context.
