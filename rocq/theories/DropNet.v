(** The forward pass of a whole network in training mode, with dropout, and the losses computed from it.
    Sources: einet.py:121-219 (forward), 262-310, 366-415 and 316-323 (the rates the constructor passes on),
    einsum.py:63-68 and 116-119, main.py:69-76, models_pl.py:182-199.

    The Bernoulli draws are an oracle: [coins i k idx] is the outcome at position [idx] of the k-th tensor that
    layer [i] draws; the mixing layer comes after the other layers.  Results are [None] when a [while] loop has not
    ended within [fuel] rounds.  The leaf layer does not drop: [_apply_dropout] (abstract_leaf.py:217-234) has no caller. *)
From Coq Require Import List Arith Lia Bool Reals.
Import ListNotations.
From Verif Require Import Base RSum Num Tensor Prob Layers Leaf Einet Dropout Train.

(** A computation that may diverge or raise. *)
Definition obind {A B} (m : option (res A)) (k : A -> option (res B)) : option (res B) :=
  match m with None => None | Some (Err e) => Some (Err e) | Some (Ok a) => k a end.

(** einsum.py:116-119: no loop; x[dropout_indices] = -inf *)
Definition fill_dropped (coin : list nat -> bool) (x : tensor num) : tensor num :=
  mkT (shape x) (fun idx => if coin idx then NInf else get x idx).
Definition einsum_train (coin : nat -> list nat -> bool) (p : R) (training : bool) (L : slay) (x : tensor num) : option (res (tensor num * cache)) :=
  if (if Rlt_dec 0 p then training else false)
  then Some (einsum_forward L (fill_dropped (coin 0) x)) else Some (einsum_forward L x).

Section Train.
Context {V : Type}.
Variable coins : nat -> nat -> list nat -> bool.
Variables (p : R) (training : bool) (fuel : nat).

(** The dropout rate of a layer of a network with [config.dropout = p]: EinsumLayer does not pass its argument on,
    and the root sum layer of a bottom-up network is built without it (einet.py:417-423). *)
Definition layer_rate (E : einet V) (l : layer) : R :=
  match l with
  | LEin _ | LRoot _ => 0%R
  | LLin _ | LLin2 _ => p
  | LSum _ => match e_perm E with Some _ => 0%R | None => p end
  end.
Definition layer_train (E : einet V) (i : nat) (l : layer) (x : tensor num) : option (res (tensor num)) :=
  let q := layer_rate E l in
  let out := fun yc : tensor num * cache => Some (Ok (fst yc)) in
  match l with
  | LEin L => obind (einsum_train (coins i) q training L x) out
  | LLin L => obind (linsum_train (coins i) q training fuel L x) out
  | LLin2 L => obind (linsum2_train (coins i) q training fuel L x) out
  | LSum L => obind (sum_train (coins i) q training fuel L x) out
  | LRoot D => Some (rootprod_forward D x)
  end.
Fixpoint train_layers (E : einet V) (i : nat) (ls : list layer) (x : tensor num) : option (res (tensor num)) :=
  match ls with
  | [] => Some (Ok x)
  | l :: ls' => obind (layer_train E i l x) (fun y => train_layers E (S i) ls' y)
  end.
(** einet.py:177-204 *)
Definition train_upper (E : einet V) (x : tensor num) : option (res (tensor num)) :=
  obind (Some (match e_perm E with None => Ok x | Some (p, _) => permute_reps (buffer (e_R E) (e_F E) p) (e_R E) x end)) (fun x =>
  obind (train_layers E 0 (e_layers E) x) (fun x =>
  obind (Some ('(batch, features, channels, _) <- size4 x ;;
               _ <- assert (features =? 1) ;;
               _ <- assert (channels =? e_K E) ;; Ok batch)) (fun batch =>
  obind (if 1 <? e_R E
         then obind (Some (attr (e_mixing E))) (fun m =>
              obind (mixing_train (coins (length (e_layers E))) p training fuel m x) (fun yc => Some (Ok (fst yc))))
         else Some (Ok (squeeze 3 x))) (fun x =>
  let x := squeeze 1 x in
  Some (_ <- assert (eqb_list (shape x) [batch; e_K E]) ;; Ok x))))).
Definition forward_train (E : einet V) (x : tensor (option V)) (ms : option (list nat)) : option (res (tensor num)) :=
  obind (Some (prepare E x)) (fun x =>
  obind (Some (leaf_forward (e_leaf E) x ms)) (fun y =>
  obind (Some (merge_channels E y)) (train_upper E))).

(** main.py:71-76, not classification; and models_pl.py:182-199 *)
Definition generative_train_loss (E : einet V) (data : tensor (option V)) : option (res num) :=
  obind (forward_train E data None) (fun outputs =>
  Some (lls <- log_likelihoods outputs None ;; Ok (nmul (Fin (-1)) (tmean lls)))).
Definition lightning_train_loss (E : einet V) (data : tensor (option V)) (r : reduction) : option (res num) :=
  obind (forward_train E data None) (fun y =>
  let nll := tmap (nmul (Fin (-1))) y in
  Some (match r with RMean => Ok (tmean nll) | RSum => Ok (total nll) | ROther => Err ValueErr end)).
(** main.py:71-74, classification, without the call of [posterior] whose result is dropped *)
Definition labels_train_loss (E : einet V) (data : tensor (option V)) (target : tensor nat) : option (res num) :=
  obind (forward_train E data None) (fun outputs => Some (nll_loss outputs target)).
End Train.
