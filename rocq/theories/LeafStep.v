(** Training steps on the parameters of the leaves: optimizer.step() (main.py:77, models_pl.py:127-137) updates every nn.Parameter of the
    model, and the leaf objects hold theirs: Bernoulli.probs (bernoulli.py:27), Binomial.logits (binomial.py:50), Categorical.logits
    (categorical.py:30) and Normal.means and Normal.logvar (normal.py:34-35).

    Simplifications.  As in Step.v.  torch.sigmoid is taken without rounding.  RatNormal, Mixture and the other leaf classes are not
    trained here. *)
From Coq Require Import List Arith Lia Bool ZArith Reals.
Import ListNotations.
From Verif Require Import Base RSum Num Tensor Prob Layers Leaf Family Einet Save Step.
Local Open Scope R_scope.

(** The parameters of a leaf layer: for every key [channel; feature; leaf; repetition] the numbers [0 .. fam_n - 1], and the layer that
    they give *)
Record family (V : Type) : Type := mkFam { fam_n : nat; fam_leaf : (list nat -> nat -> R) -> bleaf V }.
Arguments mkFam {V}. Arguments fam_n {V}. Arguments fam_leaf {V}.
(** bernoulli.py:27-31 *)
Definition bernoulli_family (F C L Rn : nat) : family nat := mkFam 1 (fun th => bernoulli_leaf rsigmoid F C L Rn (fun key => th key 0%nat)).
(** binomial.py:50-58 *)
Definition binomial_family (F C L Rn n : nat) : family nat := mkFam 1 (fun th => binomial_leaf rsigmoid F C L Rn n (fun key => th key 0%nat)).
(** categorical.py:30-34 *)
Definition categorical_family (F C L Rn K : nat) : family nat := mkFam K (fun th => categorical_leaf F C L Rn K (fun key j => Fin (th key j))).
(** normal.py:34-39: parameter 0 is the mean, parameter 1 the logarithm of the variance *)
Definition normal_family (F C L Rn : nat) : family R := mkFam 2 (fun th => normal_leaf F C L Rn (fun key => th key 0%nat) (fun key => th key 1%nat)).

(** A step on all parameters: [d], [dm] and [dp] are added to the logits of the layers, of the mixing layer and to the leaf parameters. *)
Definition step_all {V} (fam : family V) (E : einet V) (th : list nat -> nat -> R) (d : nat -> list nat -> R) (dm : list nat -> R) (dp : list nat -> nat -> R) : einet V :=
  step_net E d dm (fam_leaf fam (fun key j => th key j + dp key j)).

(** A network, its leaf parameters and the state of Adam for all of them *)
Record full (V : Type) : Type := mkFull { fu_tr : training V; fu_th : list nat -> nat -> R; fu_mom : list nat -> nat -> moments }.
Arguments mkFull {V}. Arguments fu_tr {V}. Arguments fu_th {V}. Arguments fu_mom {V}.
Definition full_start {V} (E : einet V) (th : list nat -> nat -> R) : full V := mkFull (tr_start E) th (fun _ _ => fresh).
(** One batch: the learning rate and the gradients of the logits, of the mixing layer and of the leaf parameters *)
Record full_step : Type := mkFs { fs_lr : R; fs_G : nat -> list nat -> R; fs_Gm : list nat -> R; fs_Gp : list nat -> nat -> R }.
(** main.py:77 with torch.optim.Adam *)
Definition adam_full {V} (fam : family V) (h : hyper) (T : full V) (s : full_step) : full V :=
  let M := fun key j => adam_moments h (fu_mom T key j) (fs_Gp s key j) in
  let th := fun key j => fu_th T key j + adam_change h (fs_lr s) (M key j) in
  mkFull (adam_net h (fs_lr s) (fu_tr T) (fs_G s) (fs_Gm s) (fam_leaf fam th)) th M.
Definition full_run {V} (fam : family V) (h : hyper) (E : einet V) (th : list nat -> nat -> R) (steps : list full_step) : full V :=
  fold_left (adam_full fam h) steps (full_start E th).
