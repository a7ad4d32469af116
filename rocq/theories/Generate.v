(** Image generation of the Lightning programs: models_pl.py:23-92 (make_einet, make_convpc) and 201-221
    (SpnGenerative.generate_samples), data.py:45-68 (Shape).

    Simplifications.  [val] turns leaf values into numbers.  The random numbers of the differentiable branch are
    the argument [us], see Diff.v.  Making a grid of the images and logging it are not modelled. *)
From Coq Require Import List Arith Bool ZArith Reals.
Import ListNotations.
From Verif Require Import Base Num Tensor Prob Layers Leaf TypeChecks Einet Build Mixture Diff ConvPc ConvMix.

(** data.py:45-49; iterating gives the channels, the height and the width (:51-53) *)
Record ishape : Type := mkShape { i_C : nat; i_H : nat; i_W : nat }.
(** data.py:66-68 *)
Definition num_pixels (s : ishape) : nat := i_W s * i_H s.

(** The parts of cfg that make_einet reads *)
Record ecfg : Type := mkEcfg { x_D : nat; x_S : nat; x_I : nat; x_R : nat; x_drop : R; x_layer : ltype; x_struct : stype }.
(** models_pl.py:35-53, leaf class without a cardinality *)
Definition einet_config (s : ishape) (x : ecfg) (num_classes : nat) : config :=
  mkConfig (VInt (Z.of_nat (num_pixels s))) (VInt (Z.of_nat (i_C s))) (VInt (Z.of_nat (x_S x))) (VInt (Z.of_nat (x_I x)))
    (VInt (Z.of_nat (x_R x))) (VInt (Z.of_nat num_classes)) (VInt (Z.of_nat (x_D x))) (VFloat (Fin (x_drop x))) LeafClass None
    (x_layer x) (x_struct x).

Section Generate.
Context {V : Type}.
Variable val : V -> R.

(** self.spn: what make_einet and make_convpc return (models_pl.py:54-57, 88-91) *)
Inductive spn : Type :=
| SpnEinet (E : einet V)
| SpnConv (P : convpc V) (st : cstate)
| SpnMix (Es : list (einet V)) (ws : list R) (predict : tensor (option V) -> option (list nat) -> list nat)
| SpnConvMix (Ps : list (convpc V)) (ws : list R) (predict : tensor (option V) -> option (list nat) -> list nat) (sts : list cstate).

Definition numbers (t : tensor (option V)) : tensor num := tmap (fun o => match o with Some v => Fin (val v) | None => NaN end) t.
(** models_pl.py:212-217: spn.sample(num_samples=n, mpe_at_leaves=True[, is_differentiable=True]).  Only Einet.sample takes
    the argument is_differentiable (einet.py:533; mixture.py:116, conv_pc.py:658). *)
Definition spn_sample (us : nat -> list nat -> R) (m : spn) (n : nat) (differentiable : bool) : M V (tensor num) :=
  match m, differentiable with
  | SpnEinet E, false => t <~ sample E (mkArgs (Some n) CNone None false true 1 None) ;; Ret (numbers t)
  | SpnEinet E, true => dsample val us E (mkArgs (Some n) CNone None false true 1 None)
  | SpnConv P st, false => snd (conv_sample P val st (mkCA (Some n) None false true false 1))
  | SpnMix Es ws predict, false => t <~ mix_sample Es ws predict (mkMArgs (Some n) None CNone None false true 1 None) ;; Ret (numbers t)
  | SpnConvMix Ps ws predict sts, false => snd (cm_sample val Ps ws predict sts (mkMArgs (Some n) None CNone None false true 1 None))
  | _, true => Fail TypeErr
  end.
(** models_pl.py:201-221 *)
Definition generate_samples (us : nat -> list nat -> R) (s : ishape) (m : spn) (n : nat) (differentiable : bool) : M V (tensor num) :=
  t <~ spn_sample us m n differentiable ;;
  lift (t <- view_infer [] [i_C s; i_H s; i_W s] t ;;
        Ok (tmap (fun v => ndiv v (Fin 255)) t)).
End Generate.
