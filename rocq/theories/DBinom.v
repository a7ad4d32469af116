(** Binomial leaves in differentiable sampling.
    Source: simple_einet/layers/distributions/binomial.py:52-58, 64-128. *)
From Coq Require Import List Arith Lia Bool ZArith Reals.
Import ListNotations.
From Verif Require Import Base RSum Num Tensor Prob Layers Leaf Family Temper.
Local Open Scope R_scope.

(** Tensor.clip_(min=0, max=total_count), :112; NaN stays NaN. *)
Definition nclip (lo hi : R) (x : num) : num :=
  match x with
  | Fin r => Fin (Rmin hi (Rmax lo r))
  | PInf => Fin hi
  | NInf => Fin lo
  | NaN => NaN
  end.
(** :81-113 DifferentiableBinomial.sample, one entry; [eps] is the number from torch.randn.  torch.sqrt of a
    negative number is NaN. *)
Definition dbinomial_mu (n : nat) (p : R) : R := INR n * p.
Definition dbinomial_sigma (n : nat) (p : R) : num := nsqrt (INR n * p * (1 - p)).
Definition dbinomial_sample (n : nat) (p eps : R) : num :=
  nclip 0 (INR n) (nadd (Fin (dbinomial_mu n p)) (nmul (dbinomial_sigma n p) (Fin eps))).

(** The Binomial leaf over real numbers, the entries of the tensors that it reads and returns.
    log_prob (:115-125 and dist.Binomial) accepts the integers from 0 to total_count: the constraint is
    [x % 1 == 0] and the bounds.  dist_mode (abstract_leaf.py:77-84) treats both classes alike. *)
Definition whole (n : nat) (x : R) : bool :=
  if Req_EM_T (IZR (Int_part x)) x then (0 <=? Int_part x)%Z && (Int_part x <=? Z.of_nat n)%Z else false.
Definition real_binomial_leaf (sgm : R -> R) (F C L Rn n : nat) (par : list nat -> R) : bleaf R :=
  mkLf C F L Rn (fun key x => binomial_lp n (sgm (par key)) (Z.to_nat (Int_part x))) (whole n) 0
    (Some (fun key => INR (binomial_mode n (sgm (par key))))) true.
(** The values that a leaf with [is_differentiable] can return. *)
Definition dbinomial_draw (sgm : R -> R) (n : nat) (par : list nat -> R) (key : list nat) (x : R) : Prop :=
  exists eps, dbinomial_sample n (sgm (par key)) eps = Fin x.
