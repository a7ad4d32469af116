(** Sampling temperatures of the leaves.
    Source: simple_einet/layers/distributions/abstract_leaf.py:107-131, normal.py:136-151. *)
From Coq Require Import List Arith Lia Bool Reals.
Import ListNotations.
From Verif Require Import Base RSum Num Tensor Prob Layers Leaf Family.
Local Open Scope R_scope.

(** np.sqrt: NaN (and a warning) for a negative number *)
Definition nsqrt (T : R) : num := if Rle_dec 0 T then Fin (sqrt T) else NaN.

(** abstract_leaf.py:126-127: CustomNormal(mu, sigma * np.sqrt(temperature_leaves)).  Normal and RatNormal both
    build a CustomNormal, so the branch :124-125 for dist.Normal is not reached from a leaf. *)
Definition temper_sigma (T sigma : R) : num := nmul (Fin sigma) (nsqrt T).
(** normal.py:136-151 CustomNormal.sample, one entry; [eps] is the number from torch.randn. *)
Definition custom_sample (mu : R) (sigma : num) (eps : R) : num := nadd (Fin mu) (nmul sigma (Fin eps)).
Definition normal_sample (T mu sigma eps : R) : num := custom_sample mu (temper_sigma T sigma) eps.

(** abstract_leaf.py:128-129: Categorical(logits=logits / temperature_leaves).  The constructor subtracts the
    logsumexp and rejects NaN. *)
Definition temper_categorical (T : R) (K : nat) (logits : nat -> num) : res (nat -> num) :=
  let l := nlog_softmax K (fun k => ndiv (logits k) (Fin T)) in
  _ <- guard (forallb (fun k => negb (isnan (l k))) (seq 0 K)) ValueErr ;;
  Ok l.
(** Every other distribution is sampled as it is; in particular Binomial, DifferentiableBinomial and
    PiecewiseLinearDist. *)
Definition temper_binomial (T : R) (n : nat) (p : R) : nat * R := (n, p).
