(** The training and evaluation loops: main.py:43-137 (train, test) and 223-226 (the epochs), data.py:845-875 (the loaders).

    Simplifications.  torch.utils.data.DataLoader is external and modelled from its documentation (no sampler, drop_last=False): it takes
    the rows in an order, in groups of batch_size.  A data set is a tensor with one row per item, as preprocess (C29) leaves it: a loop
    visits every row once, so that the noise of a row is part of the row.  Dropout is off (main.py:184).  backward() hands the gradients to
    the optimizer (Step.v); they are an argument.  The accuracy that train prints (main.py:81-84) is not modelled. *)
From Coq Require Import List Arith Bool Reals.
Import ListNotations.
From Verif Require Import Base RSum Num Tensor Prob Layers Leaf Einet Train Step LeafStep.

(** * Loaders *)
(** Groups of [bs] in a row; the last one may be smaller. *)
Fixpoint chunks_of {A} (fuel bs : nat) (l : list A) : list (list A) :=
  match fuel, l with
  | S fuel, _ :: _ => firstn bs l :: chunks_of fuel bs (skipn bs l)
  | _, _ => []
  end.
Definition chunks {A} (bs : nat) (l : list A) : list (list A) := chunks_of (length l) bs l.
(** default_collate: the rows [idxs] of a data set *)
Definition collate {A} (x : tensor A) (idxs : list nat) : tensor A :=
  mkT (length idxs :: tl (shape x)) (fun idx => get x (nth (hd 0 idx) idxs 0 :: tl idx)).
(** data.py:858-875; a batch size that is not positive raises ValueError. *)
Definition loader {V} (bs : nat) (order : list nat) (x : tensor (option V)) (labels : tensor nat) : res (list (tensor (option V) * tensor nat)) :=
  _ <- guard (negb (bs =? 0)) ValueErr ;;
  Ok (map (fun idxs => (collate x idxs, collate labels idxs)) (chunks bs order)).

(** * Evaluation *)
(** lls.squeeze().cpu().tolist(), added to a list: without dimensions, tolist() gives a float and the addition raises TypeError.  More than one
    dimension does not occur (log_likelihoods gives [N] or [N, 1]). *)
Definition add_list (l : list num) (t : tensor num) : res (list num) :=
  match filter (fun d => negb (d =? 1)) (shape t) with
  | [] => Err TypeErr
  | _ => Ok (l ++ map (fun i => get t (unravel (shape t) i)) (seq 0 (numel (shape t))))
  end.
(** The local variables of main.py:102-107 *)
Record tally : Type := mkTally { ta_loss : num; ta_losses : list num; ta_correct : nat; ta_total : nat }.
Section Test.
Context {V : Type}.
Variables (classification : bool) (E : einet V).
(** main.py:110-128.  The shapes of [predicted] and [target] agree, since a loader gives one label per row. *)
Definition test_step (t : tally) (b : tensor (option V) * tensor nat) : res tally :=
  let '(data, target) := b in
  outputs <- forward E data None ;;
  lls <- log_likelihoods outputs None ;;
  losses <- add_list (ta_losses t) lls ;;
  let loss := nadd (ta_loss t) (nmul (Fin (-1)) (total lls)) in
  if classification
  then let predicted := targmax 1 outputs in
       Ok (mkTally loss losses
            (ta_correct t + length (filter (fun n => get predicted [n] =? get target [n]) (seq 0 (size target 0)))) (ta_total t + size target 0))
  else Ok (mkTally loss losses (ta_correct t) (ta_total t)).
Fixpoint test_steps (t : tally) (bs : list (tensor (option V) * tensor nat)) : res tally :=
  match bs with [] => Ok t | b :: bs => t <- test_step t b ;; test_steps t bs end.
(** main.py:100-137: the average loss and the accuracy that are printed.  [n] is len(loader.dataset).  With an empty data set the loop does
    nothing, and both divisions are divisions of Python numbers by 0. *)
Definition test (n : nat) (bs : list (tensor (option V) * tensor nat)) : res (num * option num) :=
  t <- test_steps (mkTally (Fin 0) [] 0 0) bs ;;
  acc <- (if classification
          then _ <- guard (negb (ta_total t =? 0)) ZeroDivErr ;;
               Ok (Some (ndiv (Fin (100 * INR (ta_correct t))%R) (Fin (INR (ta_total t)))))
          else Ok None) ;;
  _ <- guard (negb (n =? 0)) ZeroDivErr ;;
  Ok (ndiv (ta_loss t) (Fin (INR n)), acc).
End Test.

(** * Training *)
(** The arguments that train reads *)
Record targs : Type := mkTA { t_debug : bool; t_dry : bool; t_log : nat; t_classification : bool; t_lr : R }.
Section TrainLoop.
Context {V : Type}.
Variables (fam : family V) (h : hyper) (a : targs).
(** Gradients of the loss of a batch at a state: of the logits, of the mixing layer and of the leaf parameters *)
Record grads : Type := mkGr { gr_G : nat -> list nat -> R; gr_Gm : list nat -> R; gr_Gp : list nat -> nat -> R }.
Variable backward : full V -> tensor (option V) * tensor nat -> grads.
(** main.py:53-77 *)
Definition train_step (T : full V) (b : tensor (option V) * tensor nat) : res (full V) :=
  _ <- train_loss (tr_net (fu_tr T)) (t_classification a) (fst b) (snd b) ;;
  let g := backward T b in
  Ok (adam_full fam h T (mkFs (t_lr a) (gr_G g) (gr_Gm g) (gr_Gp g))).
(** main.py:47-97; [i] is batch_idx *)
Fixpoint train_loop (i : nat) (T : full V) (bs : list (tensor (option V) * tensor nat)) : res (full V) :=
  match bs with
  | [] => Ok T
  | b :: bs =>
      if t_debug a && (2 <? i) then Ok T else
      T <- train_step T b ;;
      _ <- guard (negb (t_log a =? 0)) ZeroDivErr ;;
      if (i mod t_log a =? 0) && t_dry a then Ok T else train_loop (S i) T bs
  end.
(** main.py:224-226: the scheduler is not called (:226), so that the learning rate is the same in all epochs.  [epochs] lists what the loader
    gives in each epoch. *)
Fixpoint train_epochs (T : full V) (epochs : list (list (tensor (option V) * tensor nat))) : res (full V) :=
  match epochs with [] => Ok T | bs :: epochs => T <- train_loop 0 T bs ;; train_epochs T epochs end.
End TrainLoop.
