(** Training programs on convolutional circuits.  /repo/models_pl.py (SpnGenerative) with
    cfg.model == "convpc" and cfg.mixture == False.  Not modelled: SpnDiscriminative, whose steps call
    [self.spn.posterior] (:291), which neither ConvPc nor nn.Module defines (AttributeError). *)
From Coq Require Import List Arith Reals.
Import ListNotations.
From Verif Require Import Base Num Tensor Prob Leaf Einet Train ConvPc.

Section Model.
Context {V : Type}.
Variable P : convpc V.
(** models_pl.py:182-199; [self.spn(data)] is conv_pc.py:649-656 and has shape [N].  The caches of the layers are
    written as in ConvPc.v. *)
Definition conv_nll (st : cstate) (data : tensor (option V)) (r : reduction) : cstate * res num :=
  let '(st', y) := conv_forward P st data in
  (st', y <- y ;;
        let nll := tmap (nmul (Fin (-1)%R)) y in
        match r with
        | RMean => Ok (tmean nll)
        | RSum => Ok (total nll)
        | ROther => Err ValueErr
        end).
End Model.
