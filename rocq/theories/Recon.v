(** Samples and reconstructions of the test images: main.py:239-364.

    Simplifications.  [val] turns leaf values into numbers; the random numbers of the differentiable branch are the argument [us], see Diff.v.
    The temperatures are 1 (the defaults of args.py), and num_samples is 1 (main.py:312), so that the loop makes one call.  Making and saving the
    grids is not modelled.  [x] is test_x after preprocess (C29). *)
From Coq Require Import List Arith Bool Reals.
Import ListNotations.
From Verif Require Import Base Num Tensor Prob Layers Leaf Einet Diff Generate.

(** round(n / 2): Python rounds halves to the even neighbour. *)
Definition half_even (n : nat) : nat := if (n mod 2 =? 0) || Nat.even (n / 2) then n / 2 else S (n / 2).
(** main.py:309-310: image_scope numbers the entries of an image; the slice takes the first round(width / 2) rows of every channel. *)
Definition recon_scopes (s : ishape) : list nat :=
  flat_map (fun c => flat_map (fun h => map (fun w => (c * i_H s + h) * i_W s + w) (seq 0 (i_W s)))
    (seq 0 (Nat.min (half_even (i_W s)) (i_H s)))) (seq 0 (i_C s)).
(** t.squeeze() *)
Definition squeeze_all {A} (t : tensor A) : tensor A :=
  let s := filter (fun d => negb (d =? 1)) (shape t) in mkT s (fun idx => get t (unravel (shape t) (ravel s idx))).

Section Recon.
Context {V : Type}.
Variables (val : V -> R) (us : nat -> list nat -> R).
(** has_gauss_dist and n_bins *)
Variables (gauss : bool) (n_bins : R) (s : ishape) (E : einet V).
(** model.sample(...) with is_differentiable = [diff] *)
Definition sample_numbers (diff : bool) (a : sargs) : M V (tensor num) :=
  if diff then dsample val us E a else t <~ sample E a ;; Ret (numbers val t).
Definition unscale (t : tensor num) : tensor num := if gauss then t else tmap (fun v => ndiv v (Fin n_bins)) t.
(** main.py:273-299 *)
Definition sample_images (diff mpel : bool) (n : nat) : M V (tensor num) :=
  t <~ sample_numbers diff (mkArgs (Some n) CNone None false mpel 1 None) ;;
  lift (t <- view_infer [] [i_C s; i_H s; i_W s] t ;; Ok (unscale t)).
(** main.py:312-340 ([mp] = false) and 355-364 ([mp] = true, [mpel] = false) *)
Definition reconstruct (diff mp mpel : bool) (x : tensor (option V)) : M V (tensor num) :=
  t <~ sample_numbers diff (mkArgs None CNone (Some x) mp mpel 1 (Some (recon_scopes s))) ;;
  lift (view_infer [] [i_C s; i_H s; i_W s] (squeeze_all (unscale t))).
(** main.py:349-350 *)
Definition mpe_image (diff : bool) : M V (tensor num) :=
  t <~ sample_numbers diff (mkArgs None CNone None true false 1 None) ;;
  lift (view_infer [] [i_C s; i_H s; i_W s] t).
End Recon.
