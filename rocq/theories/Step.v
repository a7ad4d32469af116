(** Training steps: optimizer.step() in the loop of main.py:43-77, with the optimizers of main.py:199, models_pl.py:127-137 and
    main_pwl.py:306-310.

    Simplifications.  Parameters are reals; gradients are handed to the step as numbers.  torch.optim.Adam (weight_decay 0, amsgrad
    off, as in all calls) and MultiStepLR are external and modelled from their documentation: every entry of every parameter has its
    own moments, and a parameter without a gradient is left alone.  The leaf object after a step is an argument: which leaves the
    parameters of a leaf give is the subject of the leaf models.  Dropout is off. *)
From Coq Require Import List Arith Lia Bool ZArith Reals.
Import ListNotations.
From Verif Require Import Base RSum Num Tensor Prob Layers Leaf Einet Save.
Local Open Scope R_scope.

(** * Adam *)
(** The state of one entry: first and second moment and the number of steps; it starts at zero. *)
Record moments : Type := mkMom { mo_m : R; mo_v : R; mo_t : nat }.
Definition fresh : moments := mkMom 0 0 0.
(** Hyperparameters: betas and eps; main.py:199 and models_pl.py:131 pass neither, so they are (0.9, 0.999) and 1e-8. *)
Record hyper : Type := mkHyper { hy_b1 : R; hy_b2 : R; hy_eps : R }.
Definition adam_defaults : hyper := mkHyper (9 / 10) (999 / 1000) (1 / 10 ^ 8).
Definition adam_moments (h : hyper) (s : moments) (g : R) : moments :=
  mkMom (hy_b1 h * mo_m s + (1 - hy_b1 h) * g) (hy_b2 h * mo_v s + (1 - hy_b2 h) * (g * g)) (S (mo_t s)).
(** What is added to the entry, from the moments after the step *)
Definition adam_change (h : hyper) (lr : R) (s : moments) : R :=
  - lr * (mo_m s / (1 - hy_b1 h ^ mo_t s)) / (sqrt (mo_v s / (1 - hy_b2 h ^ mo_t s)) + hy_eps h).

(** * Learning rates *)
(** MultiStepLR: the rate is multiplied by [gamma] at every milestone; a milestone listed twice counts twice. *)
Definition multistep (lr gamma : R) (milestones : list nat) (epoch : nat) : R :=
  lr * gamma ^ List.length (filter (fun m => m <=? epoch)%nat milestones).
(** models_pl.py:132-136; int() truncates, and 0.7 * epochs and 0.9 * epochs are taken as exact numbers. *)
Definition lit_milestones (epochs : nat) : list nat := [7 * epochs / 10; 9 * epochs / 10]%nat.
Definition lit_rate (lr : R) (epochs epoch : nat) : R := multistep lr (1 / 10) (lit_milestones epochs) epoch.

(** * One step on a network *)
Definition add_to (t : tensor num) (d : list nat -> R) : tensor num := mkT (shape t) (fun idx => nadd (get t idx) (Fin (d idx))).
Definition step_slay (L : slay) (d : list nat -> R) : slay := mkL (nf L) (sin L) (sout L) (nrep L) (add_to (logits L) d).
Definition step_layer (l : layer) (d : list nat -> R) : layer :=
  match l with
  | LEin L => LEin (step_slay L d)
  | LLin L => LLin (step_slay L d)
  | LLin2 L => LLin2 (step_slay L d)
  | LSum L => LSum (step_slay L d)
  | LRoot D => LRoot D
  end.
Fixpoint step_layers (j : nat) (ls : list layer) (d : nat -> list nat -> R) : list layer :=
  match ls with [] => [] | l :: ls' => step_layer l (d j) :: step_layers (S j) ls' d end.
(** main.py:77.  [d j] is added to the logits of layer [j], [dm] to those of the mixing layer; the class sampling root has no
    gradient, since forward does not use it (einet.py:116-177). *)
Definition step_net {V} (E : einet V) (d : nat -> list nat -> R) (dm : list nat -> R) (lf : bleaf V) : einet V :=
  with_leaf (mkE (e_F E) (e_C E) (e_L E) (e_R E) (e_K E) (e_leaf E) (e_perm E) (step_layers 0 (e_layers E) d)
    (option_map (fun m => step_slay m dm) (e_mixing E)) (e_root E)) lf.

(** * Training *)
(** A network with the optimizer's state *)
Record training (V : Type) : Type := mkTr { tr_net : einet V; tr_mom : nat -> list nat -> moments; tr_mix : list nat -> moments }.
Arguments mkTr {V}. Arguments tr_net {V}. Arguments tr_mom {V}. Arguments tr_mix {V}.
Definition tr_start {V} (E : einet V) : training V := mkTr E (fun _ _ => fresh) (fun _ => fresh).
(** Gradients of the loss of one batch: of the logits of the layers and of the mixing layer *)
Definition adam_net {V} (h : hyper) (lr : R) (T : training V) (G : nat -> list nat -> R) (Gm : list nat -> R) (lf : bleaf V) : training V :=
  let M := fun j idx => adam_moments h (tr_mom T j idx) (G j idx) in
  let Mm := fun idx => adam_moments h (tr_mix T idx) (Gm idx) in
  mkTr (step_net (tr_net T) (fun j idx => adam_change h lr (M j idx)) (fun idx => adam_change h lr (Mm idx)) lf) M Mm.
(** A run: for every batch the learning rate, the gradients and the leaf after the step *)
Record batch_step (V : Type) : Type := mkBs { bs_lr : R; bs_G : nat -> list nat -> R; bs_Gm : list nat -> R; bs_leaf : bleaf V }.
Arguments mkBs {V}. Arguments bs_lr {V}. Arguments bs_G {V}. Arguments bs_Gm {V}. Arguments bs_leaf {V}.
Definition train_run {V} (h : hyper) (E : einet V) (steps : list (batch_step V)) : training V :=
  fold_left (fun T s => adam_net h (bs_lr s) T (bs_G s) (bs_Gm s) (bs_leaf s)) steps (tr_start E).
