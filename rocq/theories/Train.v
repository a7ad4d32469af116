(** Losses and scores of the training programs: main.py:29-40 and 71-76, models_pl.py:120-125, 182-199 and
    279-298, utils.py:27-51.

    Simplifications.  Tensors hold extended reals.  Logging and the training loops
    themselves are not modelled (optimizers: Step.v): a loss is the number that backward() is called on.  torch.nn.NLLLoss and
    F.nll_loss (reduction "mean", no class weights) are external and modelled from their documentation. *)
From Coq Require Import List Arith Lia Bool ZArith Reals.
Import ListNotations.
From Verif Require Import Base RSum Num Tensor Prob Layers Leaf Einet.

(** t.sum() and t.mean() over all entries *)
Definition total (t : tensor num) : num := nsum (numel (shape t)) (fun i => get t (unravel (shape t) i)).
Definition tmean (t : tensor num) : num := ndiv (total t) (Fin (INR (numel (shape t)))).

(** main.py:29-40 log_likelihoods(outputs, targets) *)
Definition log_likelihoods (outputs : tensor num) (targets : option (tensor nat)) : res (tensor num) :=
  match targets with
  | None =>
      let num_roots := size outputs (length (shape outputs) - 1) in
      if num_roots =? 1 then Ok outputs
      else Ok (tlogsumexp (length (shape outputs) - 1) (tmap (fun l => nsub l (nlog (Fin (INR num_roots)))) outputs))
  | Some t => gather (length (shape outputs) - 1) (unsqueeze (length (shape t)) t) outputs
  end.

(** torch.nn.NLLLoss()(ll, labels) and F.nll_loss(ll, labels, reduction="mean") for [ll] of shape [N, K]: a label that
    is not a class raises; minus the mean of the labels' entries *)
Definition nll_loss (ll : tensor num) (labels : tensor nat) : res num :=
  if eqb_list (shape labels) [size ll 0] && (length (shape ll) =? 2)
  then if forallb (fun n => get labels [n] <? size ll 1) (seq 0 (size ll 0))
       then Ok (ndiv (nneg (nsum (size ll 0) (fun n => get ll [n; get labels [n]]))) (Fin (INR (size ll 0))))
       else Err IndexErr
  else Err ValueErr.

Section Net.
Context {V : Type}.

(** main.py:69-76, the loss of a training step; model.posterior(data) is called and its result dropped *)
Definition train_loss (E : einet V) (classification : bool) (data : tensor (option V)) (target : tensor nat) : res num :=
  outputs <- forward E data None ;;
  if classification
  then _ <- posterior E data ;; nll_loss outputs target
  else lls <- log_likelihoods outputs None ;; Ok (nmul (Fin (-1)) (tmean lls)).

(** models_pl.py:182-199 *)
Inductive reduction := RMean | RSum | ROther.
Definition negative_log_likelihood (E : einet V) (data : tensor (option V)) (r : reduction) : res num :=
  y <- forward E data None ;;
  let nll := tmap (nmul (Fin (-1))) y in
  match r with
  | RMean => Ok (tmean nll)
  | RSum => Ok (total nll)
  | ROther => Err ValueErr
  end.

(** models_pl.py:288-298, after preprocess *)
Definition accuracy (ll : tensor num) (labels : tensor nat) : num :=
  ndiv (Fin (INR (length (filter (fun n => get labels [n] =? get (targmax 1 ll) [n]) (seq 0 (size ll 0)))))) (Fin (INR (size ll 0))).
Definition cross_entropy_and_accuracy (E : einet V) (data : tensor (option V)) (labels : tensor nat) : res (num * num) :=
  ll <- posterior E data ;;
  loss <- nll_loss ll labels ;;
  Ok (loss, accuracy ll labels).
End Net.

(** models_pl.py:120-125 for one pixel of the data set, a number between 0 and 1 *)
Definition lit_preprocess (is_binomial : bool) (p : R) : R := if is_binomial then (p * 255)%R else p.

(** utils.py:27-51; both branches are the same.  [D]: the number of pixels, np.prod(image_shape) *)
Definition calc_bpd (log_p : tensor num) (D : nat) (has_gauss_dist : bool) (n_bins : R) : num :=
  let per l := ndiv (nneg (nsub l (Fin (ln n_bins * INR D)))) (Fin (ln 2 * INR D)) in
  if has_gauss_dist then tmean (tmap per log_p) else tmean (tmap per log_p).
