(** Training steps on convolutional circuits: optimizer.step() for models_pl.py (SpnGenerative) with cfg.model == "convpc" and
    cfg.mixture == False, with the Adam of models_pl.py:127-137.

    Simplifications: those of Step.v (gradients are numbers handed to the step, the leaf after a step is an argument). *)
From Coq Require Import List Arith Reals.
Import ListNotations.
From Verif Require Import Base Num Tensor Leaf Einet ConvPc Step.
Local Open Scope R_scope.

(** * One step on a model *)
(** conv_pc.py:301-307: the only parameter of a SumLayer is [logits]; ProdConv has none (:394-410). *)
Definition step_csum (s : csum) (d : list nat -> R) : csum := mkCS (cs_in s) (cs_out s) (cs_h s) (cs_w s) (add_to (cs_logits s) d).
Definition step_clay (l : clayer) (d : list nat -> R) : clayer :=
  match l with
  | CSum s => CSum (step_csum s d)
  | CProd kh kw => CProd kh kw
  | CSumProd o s kh kw => CSumProd o (step_csum s d) kh kw
  end.
Fixpoint step_clays (j : nat) (ls : list clayer) (d : nat -> list nat -> R) : list clayer :=
  match ls with [] => [] | l :: ls' => step_clay l (d j) :: step_clays (S j) ls' d end.
(** [d j] is added to the logits of layer [j] of self.layers; [lf] is the leaf afterwards. *)
Definition step_conv {V} (P : convpc V) (d : nat -> list nat -> R) (lf : bleaf V) : convpc V :=
  mkCP (cp_C P) (cp_H P) (cp_W P) (cp_L P) lf (step_clays 0 (cp_layers P) d).

(** * Training *)
(** A model with the optimizer's state *)
Record ctraining (V : Type) : Type := mkCT { ct_net : convpc V; ct_mom : nat -> list nat -> moments }.
Arguments mkCT {V}. Arguments ct_net {V}. Arguments ct_mom {V}.
Definition ct_start {V} (P : convpc V) : ctraining V := mkCT P (fun _ _ => fresh).
Definition adam_conv {V} (h : hyper) (lr : R) (T : ctraining V) (G : nat -> list nat -> R) (lf : bleaf V) : ctraining V :=
  let M := fun j idx => adam_moments h (ct_mom T j idx) (G j idx) in
  mkCT (step_conv (ct_net T) (fun j idx => adam_change h lr (M j idx)) lf) M.
(** A run: for every batch the learning rate, the gradients of the logits and the leaf after the step *)
Record conv_step (V : Type) : Type := mkCst { cst_lr : R; cst_G : nat -> list nat -> R; cst_leaf : bleaf V }.
Arguments mkCst {V}. Arguments cst_lr {V}. Arguments cst_G {V}. Arguments cst_leaf {V}.
Definition conv_run {V} (h : hyper) (P : convpc V) (steps : list (conv_step V)) : ctraining V :=
  fold_left (fun T s => adam_conv h (cst_lr s) T (cst_G s) (cst_leaf s)) steps (ct_start P).
