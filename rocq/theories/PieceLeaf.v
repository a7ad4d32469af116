(** The PiecewiseLinear leaf layer of a network, for data with the values 0 .. B-1.
    Source: simple_einet/layers/distributions/piecewise_linear.py:212-219 (base distribution), :304-350 (sampling), :360-381 (mode),
    :383-406 (log-probabilities).  [xs] and [ys] are what initialize stored (Piecewise.v: pl_init), one cell per
    (channel, feature, leaf, repetition). *)
From Coq Require Import List Arith Lia Bool ZArith Reals.
Import ListNotations.
From Verif Require Import Base RSum Num Tensor Prob Leaf Piecewise.
Local Open Scope R_scope.

(** Domain.discrete_range(0, B - 1), dist.py:33-36 *)
Definition pl_domain (B : nat) : domain := Discrete (map INR (seq 0 B)).
(** No support is checked by log_prob (there is no validate_args); the layer is only used here on values of the domain.
    The mode is the knot of the largest height; knot i + 1 is the value i. *)
Definition pl_leaf (F C L Rn B : nat) (xs : list nat -> list R) (ys : list nat -> list num) : bleaf nat :=
  mkLf C F L Rn (fun key v => pl_log_prob (xs key) (ys key) (INR v)) (fun v => (v <? B)%nat) 0%nat
    (Some (fun key => (nargmax (length (ys key)) (fun i => nth i (ys key) NaN) - 1)%nat)) true.
(** The draw of a leaf, :316-320 *)
Definition pl_draw (B : nat) (ys : list nat -> list num) : list nat -> (nat -> R) -> R :=
  EL_discrete B (fun key k => toR (pl_discrete_prob (ys key) k)).
