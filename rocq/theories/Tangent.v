(** Gradients of differentiable samples: sampling_utils.py:166-295, abstract_layers.py:191-206, and the differentiable branches of sum.py:95-140.

    Automatic differentiation is modelled in forward mode: a float tensor carries its derivative along one direction of the parameters, and
    every operation of torch follows its documented derivative.  [detach] and integer tensors carry none.  By the chain rule the gradients
    of torch's backward mode are the same numbers.

    Simplification.  Networks have one repetition here: the repetition index is the constant one and selects the only slice (linsum.py:172-175). *)
From Coq Require Import List Arith Bool Reals.
Import ListNotations.
From Verif Require Import Base RSum Num Tensor Prob Layers Diff.
Local Open Scope nat_scope.

(** * Tensors with derivatives *)
Record dual : Type := mkDual { primal : tensor num; tangent : tensor num }.
Definition const (t : tensor num) : dual := mkDual t (full (shape t) (Fin 0%R)).
Definition detach (a : dual) : dual := const (primal a).
Definition dual_add (a b : dual) : res dual :=
  p <- badd (primal a) (primal b) ;; t <- badd (tangent a) (tangent b) ;; Ok (mkDual p t).
Definition dual_sub (a b : dual) : res dual :=
  p <- bsub (primal a) (primal b) ;; t <- bsub (tangent a) (tangent b) ;; Ok (mkDual p t).
(** The product rule *)
Definition dual_mul (a b : dual) : res dual :=
  p <- bmul (primal a) (primal b) ;;
  t1 <- bmul (tangent a) (primal b) ;;
  t2 <- bmul (primal a) (tangent b) ;;
  t <- badd t1 t2 ;; Ok (mkDual p t).
Definition dual_sum (d : nat) (a : dual) : dual := mkDual (tsum d (primal a)) (tsum d (tangent a)).
Definition dual_div (a : dual) (T : R) : dual :=
  mkDual (tmap (fun x => ndiv x (Fin T)) (primal a)) (tmap (fun x => ndiv x (Fin T)) (tangent a)).
Definition dual_exp (a : dual) : dual :=
  mkDual (tmap nexp (primal a)) (mkT (shape (primal a)) (fun idx => nmul (nexp (get (primal a) idx)) (get (tangent a) idx))).
(** The mean of the derivatives along dimension [d], weighted by the softmax *)
Definition soft_mean (d : nat) (a : dual) (idx : list nat) : num :=
  nsum (size (primal a) d) (fun k => nmul (get (tsoftmax d (primal a)) (set_nth d k idx)) (get (tangent a) (set_nth d k idx))).
Definition dual_log_softmax (d : nat) (a : dual) : dual :=
  mkDual (tlog_softmax d (primal a)) (mkT (shape (primal a)) (fun idx => nsub (get (tangent a) idx) (soft_mean d a idx))).
Definition dual_unsqueeze (d : nat) (a : dual) : dual := mkDual (unsqueeze d (primal a)) (unsqueeze d (tangent a)).

(** * sampling_utils.py *)
(** :166-203 with log_weights, the only argument that the layers pass *)
Definition dual_SIMPLE (u : list nat -> R) (mpe : bool) (w : dual) (d : nat) : res dual :=
  let y := dual_exp w in
  let base := primal w in
  base <- (if mpe then Ok base else badd base (mkT (shape base) (fun idx => gumbel (u idx)))) ;;
  let index := targmax d (tsoftmax d base) in
  let y_hard := const (mkT (shape (primal y)) (fun idx => Fin (if nth d idx 0 =? get index (remove_nth d idx) then 1%R else 0%R))) in
  s <- dual_sub y_hard y ;;
  dual_add (detach s) y.
(** :248-295 *)
Definition dual_index_one_hot (d : nat) (t index : dual) : res dual :=
  _ <- assert (size (primal t) d =? size (primal index) d) ;;
  _ <- assert (dim (primal t) =? dim (primal index)) ;;
  p <- dual_mul t index ;;
  Ok (dual_sum d p).

(** * Layers *)
(** abstract_layers.py:45-59 *)
Definition dual_log_weights (a : dual) (d : nat) (T : R) : dual := dual_log_softmax d (dual_div a T).
(** sum.py:95-105: the logits of shape (D, S, O) of the nodes that the parents of shape (N, D, O) chose *)
Definition dual_select (lg p : dual) : res dual := dual_index_one_hot 3 (dual_unsqueeze 0 lg) (dual_unsqueeze 2 p).
(** sum.py:128-140: one choice among [S] children per row and node *)
Definition dual_choice (u : list nat -> R) (mpe : bool) (T : R) (g : dual) : res dual :=
  dual_SIMPLE u mpe (dual_log_weights g 2 T) 2.
(** abstract_leaf.py:150-160: the chosen leaf values *)
Definition dual_leaf (v i : dual) : res dual := dual_index_one_hot 2 v i.
(** A sum layer above the leaves *)
Definition dual_sample1 (u : list nat -> R) (mpe : bool) (T : R) (g v : dual) : res dual :=
  i <- dual_choice u mpe T g ;; dual_leaf v i.
(** Two sum layers above the leaves *)
Definition dual_sample2 (u u' : list nat -> R) (mpe : bool) (T : R) (g lg v : dual) : res dual :=
  p <- dual_choice u mpe T g ;;
  h <- dual_select lg p ;;
  dual_sample1 u' mpe T h v.
