(** The densities of the multivariate normal layer.
    Source: simple_einet/layers/distributions/multivariate_normal.py:46-66 and torch.distributions.MultivariateNormal. *)
From Coq Require Import List Arith Lia Bool Reals.
Import ListNotations.
From Verif Require Import Base RSum Num Tensor Prob Mv.
Local Open Scope R_scope.

(** :57-63 scale_tril = diag_embed(exp(L_diag_log)) + L_offdiag.tril(-1), for one distribution. *)
Definition scale_tril (dl : nat -> R) (off : nat -> nat -> R) (i j : nat) : R :=
  (if (i =? j)%nat then exp (dl i) else 0) + (if (j <? i)%nat then off i j else 0).
(** torch.distributions.constraints.lower_cholesky, which MultivariateNormal(validate_args) requires of scale_tril. *)
Definition lower_cholesky (k : nat) (L : nat -> nat -> R) : Prop :=
  (forall i j, (i < k)%nat -> (j < k)%nat -> (i < j)%nat -> L i j = 0) /\ forall i, (i < k)%nat -> 0 < L i i.
(** torch.linalg.solve_triangular(L, b, upper=False), as in _batch_mahalanobis: forward substitution. *)
Fixpoint solve (L : nat -> nat -> R) (b : nat -> R) (n : nat) : nat -> R :=
  match n with
  | O => fun _ => 0
  | S n' => let z := solve L b n' in
      fun i => if (i =? n')%nat then (b n' - rsum n' (fun j => L n' j * z j)) / L n' n' else z i
  end.
(** MultivariateNormal.log_prob: -0.5 * (k * log(2 * pi) + M) - half_log_det. *)
Definition mvn_lp (k : nat) (mu : nat -> R) (L : nat -> nat -> R) (x : nat -> R) : num :=
  let z := solve L (fun i => x i - mu i) k in
  Fin (- (1 / 2) * (INR k * ln (2 * PI) + rsum k (fun i => z i ^ 2)) - rsum k (fun i => ln (L i i))).
(** MultivariateNormal.rsample: loc + scale_tril @ eps. *)
Definition mvn_rsample (k : nat) (mu : nat -> R) (L : nat -> nat -> R) (e : nat -> R) (i : nat) : R :=
  mu i + rsum k (fun j => L i j * e j).
(** :65-80: one distribution per position (channel, group, leaf, repetition). *)
Definition mvn_leaf (C F L Rn k : nat) (means dl : list nat -> nat -> R) (off : list nat -> nat -> nat -> R) : mvleaf R :=
  mkMv C F L Rn k (fun key => mvn_lp k (means key) (scale_tril (dl key) (off key))) means 0.
