(** The leaf families.
    Sources: simple_einet/layers/distributions/{bernoulli,binomial,categorical,normal}.py, abstract_leaf.py:45-92,
    and the log-probabilities of the torch distributions they build (torch/distributions).

    [p] stands for the number that torch.sigmoid returns for a parameter; rounding makes 0 and 1 possible.
    Everything after that is exact arithmetic. *)
From Coq Require Import List Arith Lia Bool ZArith Reals.
Import ListNotations.
From Verif Require Import Base RSum Num Tensor TypeChecks Leaf.
Local Open Scope R_scope.

(** torch.sigmoid without rounding *)
Definition rsigmoid (x : R) : R := / (1 + exp (- x)).

(** torch.distributions.utils.clamp_probs; [feps] is torch.finfo(float32).eps = 2^-23. *)
Definition feps : R := / 2 ^ 23.
Definition clamp_probs (p : R) : R := Rmin (Rmax p feps) (1 - feps).
(** log1p, |x| and clamp(min=0) on floats *)
Definition nlog1p (x : num) : num := nlog (nadd (Fin 1) x).
Definition nabs (x : num) : num := match x with Fin r => Fin (Rabs r) | NaN => NaN | _ => PInf end.
Definition nmax0 (x : num) : num := match x with Fin r => Fin (Rmax r 0) | NInf => Fin 0 | y => y end.
(** probs_to_logits(probs, is_binary=True): log(p) - log1p(-p) *)
Definition probs_to_logits (p : R) : num := let q := clamp_probs p in nsub (nlog (Fin q)) (nlog1p (Fin (- q))).

(** * Bernoulli: bernoulli.py:29-31 *)
(** Bernoulli.log_prob: -binary_cross_entropy_with_logits(logits, value), that is
    -((1 - value) * logits + max(-logits, 0) + log1p(exp(-|logits|))). *)
Definition bernoulli_lp (p : R) (v : nat) : num :=
  let l := probs_to_logits p in
  nneg (nadd (nmul (Fin (1 - INR v)) l) (nadd (nmax0 (nneg l)) (nlog1p (nexp (nneg (nabs l)))))).
(** abstract_leaf.py:72-76 *)
Definition bernoulli_mode (p : R) : nat := if Rle_dec (1 / 2) p then 1%nat else 0%nat.

(** * Binomial: binomial.py:52-58 *)
(** Binomial.log_prob; lgamma(k + 1) is the logarithm of the factorial. *)
Definition lgamma1 (k : nat) : num := nlog (Fin (INR (fact k))).
Definition binomial_lp (n : nat) (p : R) (v : nat) : num :=
  let l := probs_to_logits p in
  let total := Fin (INR n) in
  let normalize_term := nsub (nadd (nmul total (nmax0 l)) (nmul total (nlog1p (nexp (nneg (nabs l)))))) (lgamma1 n) in
  nsub (nsub (nsub (nmul (Fin (INR v)) l) (lgamma1 v)) (lgamma1 (n - v))) normalize_term.
(** abstract_leaf.py:77-84: torch.floor(probs * (total_count + 1)) *)
Definition binomial_mode (n : nat) (p : R) : nat := Z.to_nat (Int_part (p * (INR n + 1))).

(** * Categorical: categorical.py:32-34 *)
(** F.log_softmax, then Categorical(logits=...) subtracts logsumexp again; log_prob reads the entry [v]. *)
Definition nlog_softmax (K : nat) (l : nat -> num) (v : nat) : num := nsub (l v) (nlogsumexp K l).
Definition categorical_logits (K : nat) (l : nat -> num) : nat -> num := nlog_softmax K (nlog_softmax K l).
Definition categorical_lp (K : nat) (l : nat -> num) (v : nat) : num := categorical_logits K l v.
(** abstract_leaf.py:85-88; probs is the softmax of the logits *)
Definition categorical_mode (K : nat) (l : nat -> num) : nat :=
  nargmax K (fun k => ndiv (nexp (categorical_logits K l k)) (nsum K (fun j => nexp (categorical_logits K l j)))).

(** * Normal: normal.py:13-42, 119-178 *)
Definition normal_sigma (logvar : R) : R := exp (1 / 2 * logvar).
(** dist.Normal.log_prob: -((x - mu)^2) / (2 var) - log(sigma) - log(sqrt(2 pi)) *)
Definition normal_lp (mu sigma x : R) : num :=
  nsub (nsub (ndiv (Fin (- (x - mu) ^ 2)) (Fin (2 * sigma ^ 2))) (nlog (Fin sigma))) (nlog (Fin (sqrt (2 * PI)))).
(** CustomNormal.mpe, :153-163 *)
Definition normal_mode (mu : R) : R := mu.

(** * The leaf layers, with parameters for every channel, feature, leaf and repetition *)
Section Layers.
Variable sgm : R -> R.        (* torch.sigmoid *)
Variables F C L Rn : nat.
Definition bernoulli_leaf (par : list nat -> R) : bleaf nat :=
  mkLf C F L Rn (fun key v => bernoulli_lp (sgm (par key)) v) (fun v => (v <? 2)%nat) 0%nat
    (Some (fun key => bernoulli_mode (sgm (par key)))) false.
Definition binomial_leaf (n : nat) (par : list nat -> R) : bleaf nat :=
  mkLf C F L Rn (fun key v => binomial_lp n (sgm (par key)) v) (fun v => (v <? S n)%nat) 0%nat
    (Some (fun key => binomial_mode n (sgm (par key)))) true.
Definition categorical_leaf (K : nat) (par : list nat -> nat -> num) : bleaf nat :=
  mkLf C F L Rn (fun key v => categorical_lp K (par key) v) (fun v => (v <? K)%nat) 0%nat
    (Some (fun key => categorical_mode K (par key))) true.
Definition normal_leaf (means logvar : list nat -> R) : bleaf R :=
  mkLf C F L Rn (fun key x => normal_lp (means key) (normal_sigma (logvar key)) x) (fun _ => true) 0
    (Some (fun key => normal_mode (means key))) true.
End Layers.

(** * RatNormal: normal.py:45-116 *)
(** A Python value used as a bound.  Values that are not numbers are rejected when they are checked
    themselves; as a bound they behave like NaN here (the kind of exception may differ). *)
Definition as_bound (v : pyval) : bound :=
  match v with
  | VNone => BNone
  | VInt z | VNpInt z | VTInt z => BInt z
  | VFloat x | VNpFloat x | VTFloat x => BFloat x
  | VBool b => BInt (if b then 1 else 0)
  | VNpOther | VOther => BFloat NaN
  end.
Record rat : Type := mkRat { r_min_sigma : pyval; r_max_sigma : pyval; r_min_mean : pyval; r_max_mean : pyval }.
(** :89-92 *)
Definition rat_new (min_sigma max_sigma min_mean max_mean : pyval) : res rat :=
  a <- check_valid min_sigma TFloat (BFloat (Fin 0)) (as_bound max_sigma) false ;;
  b <- check_valid max_sigma TFloat (as_bound min_sigma) BNone false ;;
  c <- check_valid min_mean TFloat BNone (as_bound max_mean) true ;;
  d <- check_valid max_mean TFloat (as_bound min_mean) BNone true ;;
  Ok (mkRat a b c d).
Definition nsigmoid (x : R) : num := Fin (rsigmoid x).
(** :102-106, one entry *)
Definition rat_sigma (r : rat) (std : R) : num :=
  let lo := numval (r_min_sigma r) in let hi := numval (r_max_sigma r) in
  if nltb lo hi then nadd lo (nmul (nsub hi lo) (nsigmoid std)) else Fin 1.
(** :107-111, one entry; [if self.max_mean] is false for None and for 0.0 *)
Definition rat_mean (r : rat) (mean : R) : res num :=
  if truthy (as_bound (r_max_mean r)) then
    match r_min_mean r with
    | VNone => Err AssertionError
    | _ =>
        let lo := numval (r_min_mean r) in let hi := numval (r_max_mean r) in
        Ok (nadd (nmul (nsigmoid mean) (nsub hi lo)) lo)
    end
  else Ok (Fin mean).
