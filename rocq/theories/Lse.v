(** The masked logsumexp helper of layers/einsum.py:12-37.

    The tensors are given as one tensor (for a list the source stacks them first) and the dimension as
    a non-negative number; [mask = None] is the default mask of ones. *)
From Coq Require Import List Arith Lia Bool Reals.
Import ListNotations.
From Verif Require Import Base RSum Num Tensor.

Definition logsumexp_masked (tensors : tensor num) (mask : option (tensor num)) (d : nat) : res (tensor num) :=
  m <- (match mask with
        | None => Ok (full [size tensors d] (Fin 1))                                        (* :29-30 *)
        | Some m => _ <- assert (eqb_list (shape m) [size tensors d]) ;; Ok m               (* :31-34 *)
        end) ;;
  let maxes := reduce nmaxl d tensors in                                                    (* :36 *)
  t <- bsub tensors (unsqueeze d maxes) ;;                                                  (* :37 *)
  p <- bmul (tmap nexp t) m ;;
  badd (tmap nlog (tsum d p)) maxes.
