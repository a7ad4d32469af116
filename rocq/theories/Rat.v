(** The RatNormal leaf layer.
    Source: simple_einet/layers/distributions/normal.py:45-116 (RatNormal), :119-178 (CustomNormal), abstract_leaf.py:108-135. *)
From Coq Require Import List Arith Lia Bool ZArith Reals.
Import ListNotations.
From Verif Require Import Base RSum Num Tensor TypeChecks Leaf Family Temper.
Local Open Scope R_scope.

(** normal.py:94-99: the leaf layer with the projected means and standard deviations.  Where the projection raises or is not finite
    the entry is NaN here; the theorems exclude that case. *)
Definition rat_leaf (r : rat) (F C L Rn : nat) (means stds : list nat -> R) : bleaf R :=
  mkLf C F L Rn
    (fun key x => match rat_mean r (means key), rat_sigma r (stds key) with Ok (Fin m), Fin s => normal_lp m s x | _, _ => NaN end)
    (fun _ => true) 0
    (Some (fun key => match rat_mean r (means key) with Ok (Fin m) => normal_mode m | _ => 0 end)) true.

(** One entry of a draw: _project_params (:101-112), the tempered sigma (abstract_leaf.py:126-127) and CustomNormal.sample (:136-151).
    Without min_sigma < max_sigma the standard deviation is the Python float 1.0, which has no unsqueeze. *)
Definition rat_sample (r : rat) (T mean std eps : R) : res num :=
  m <- rat_mean r mean ;;
  if nltb (numval (r_min_sigma r)) (numval (r_max_sigma r))
  then Ok (nadd m (nmul (nmul (rat_sigma r std) (nsqrt T)) (Fin eps)))
  else Err AttributeErr.

(** :114-116 RatNormal.get_params: torch.stack of a tensor and a float raises. *)
Definition rat_params (r : rat) (mean std : R) : res (num * num) :=
  m <- rat_mean r mean ;;
  if nltb (numval (r_min_sigma r)) (numval (r_max_sigma r)) then Ok (m, rat_sigma r std) else Err TypeErr.
(** :176-178 CustomNormal.get_params, which sample(return_leaf_params=True) returns: mean and log-variance. *)
Definition rat_sampled_params (r : rat) (mean std : R) : res (num * num) :=
  m <- rat_mean r mean ;;
  if nltb (numval (r_min_sigma r)) (numval (r_max_sigma r)) then Ok (m, nmul (nlog (rat_sigma r std)) (Fin 2)) else Err AttributeErr.
