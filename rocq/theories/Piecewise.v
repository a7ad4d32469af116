(** Model of simple_einet/layers/distributions/piecewise_linear.py, one (repetition, leaf, feature, channel)
    at a time.  Knots and data are finite reals; heights are floats with NaN and infinities.  The cluster
    assignment of KMeans (:87-98) is arbitrary: it decides which data a cell receives. *)
From Coq Require Import List Arith Lia Bool ZArith Reals Lra.
Import ListNotations.
From Verif Require Import Base RSum Num Data.
Local Open Scope R_scope.

Definition zipw {A B C} (f : A -> B -> C) (a : list A) (b : list B) : list C := map (fun p => f (fst p) (snd p)) (combine a b).
(** torch.diff *)
Definition diff {A B} (f : A -> A -> B) (l : list A) : list B := zipw f (tl l) l.

(** torch.searchsorted on a sorted sequence: right=False counts the entries below x, right=True those not above x. *)
Fixpoint search_left (l : list R) (x : R) : nat :=
  match l with [] => 0%nat | a :: l' => if Rlt_dec a x then S (search_left l' x) else 0%nat end.
Fixpoint search_right (l : list num) (x : R) : nat :=
  match l with [] => 0%nat | a :: l' => if nltb (Fin x) a then 0%nat else S (search_right l' x) end.

(** values.clamp(min=0.0); NaN stays NaN *)
Definition clamp0 (a : num) : num := if nltb a (Fin 0) then Fin 0 else a.

(** interp, piecewise_linear.py:232-276 with extrapolate="constant" *)
Definition interp (xp : list R) (fp : list num) (x : R) : num :=
  let m := zipw ndiv (diff nsub fp) (diff (fun a b => Fin (a - b)) xp) in
  let b := zipw nsub (removelast fp) (zipw nmul m (map Fin (removelast xp))) in
  let i := search_left xp x in
  let m' := [Fin 0] ++ m ++ [Fin 0] in
  let b' := [hd NaN fp] ++ b ++ [last fp NaN] in
  clamp0 (nadd (nmul (nth i m' NaN) (Fin x)) (nth i b' NaN)).

(** PiecewiseLinearDist.log_prob, :383-406 *)
Definition pl_log_prob (xs : list R) (ys : list num) (x : R) : num :=
  match nlog (interp xs ys x) with NInf => Fin (-300) | v => v end.

(** PiecewiseLinearDist.mpe, :360-381 *)
Definition pl_mpe (xs : list R) (ys : list num) : R := nth (nargmax (length ys) (fun i => nth i ys NaN)) xs 0.

(** torch.trapezoid *)
Definition trapezoid (xs : list R) (ys : list num) : num :=
  nsum (length xs - 1) (fun i => nmul (Fin (nth (S i) xs 0 - nth i xs 0)) (ndiv (nadd (nth (S i) ys NaN) (nth i ys NaN)) (Fin 2))).

(** torch.histogram(data, bins=edges, density=True): entries outside the edges are ignored, the last bin is closed. *)
Definition bin_of (edges : list R) (x : R) : nat := Nat.min (search_right (map Fin edges) x - 1) (length edges - 2).
Definition counted (edges : list R) (data : list R) : list R := within (hd 0 edges) (last edges 0) data.
Definition bin_count (edges : list R) (data : list R) (i : nat) : nat :=
  length (filter (fun x => (bin_of edges x =? i)%nat) (counted edges data)).
Definition histogram (edges : list R) (data : list R) : list num :=
  map (fun i => ndiv (ndiv (Fin (INR (bin_count edges data i))) (Fin (INR (length (counted edges data)))))
                     (Fin (nth (S i) edges 0 - nth i edges 0))) (seq 0 (length edges - 1)).

(** dist.py:20-42 *)
Inductive domain := Discrete (values : list R) | Continuous.

(** Body of the loops of PiecewiseLinear.initialize, :110-190 *)
Definition pl_eps : R := / 10 ^ 8.
Definition pl_breaks (d : domain) (data : list R) : res (list R) :=
  match d with
  | Discrete [] => Err IndexErr                                     (* mids[-1] *)
  | Discrete vals => Ok (vals ++ [last vals 0 + 1])
  | Continuous => '(edges, _) <- bin_edges (map Fin data) None ;; Ok edges
  end.
Definition pl_densities (d : domain) (data : list R) (breaks : list R) : list num :=
  match d, data with
  | Discrete vals, [] => map (fun _ => Fin (1 / INR (length vals))) vals
  | _, _ => histogram breaks data
  end.
(** optional laplace smoothing, :142-147 *)
Definition pl_smooth (alpha : R) (data : list R) (breaks : list R) (dens : list num) : list num :=
  if Rlt_dec 0 alpha then
    let n := Fin (INR (length data)) in
    map (fun p => ndiv (nadd (nmul p n) (Fin alpha)) (nadd n (Fin (INR (length breaks - 1) * alpha)))) dens
  else dens.
(** :151-164 *)
Definition pl_knots (d : domain) (breaks : list R) : list R :=
  match d with
  | Discrete _ => let x := removelast breaks in [hd 0 x - 1] ++ x ++ [last x 0 + 1]
  | Continuous => [hd 0 breaks - pl_eps] ++ diff (fun b1 b0 => b0 + (b1 - b0) / 2) breaks ++ [last breaks 0 + pl_eps]
  end.
Definition pl_init (d : domain) (alpha : R) (data : list R) : res (list R * list num) :=
  breaks <- pl_breaks d data ;;
  let dens := pl_smooth alpha data breaks (pl_densities d data breaks) in
  _ <- assert (length dens + 1 =? length breaks)%nat ;;
  let x := pl_knots d breaks in
  let y := [Fin 0] ++ dens ++ [Fin 0] in
  _ <- assert (length x =? length y)%nat ;;
  Ok (x, map (fun a => ndiv a (trapezoid x y)) y).

(** _compute_cdf, :290-302 *)
Definition areas (xs : list R) (ys : list num) : list num :=
  zipw nmul (diff (fun a b => Fin (1/2 * (a - b))) xs) (zipw nadd (removelast ys) (tl ys)).
Definition pl_cdf (xs : list R) (ys : list num) : list num :=
  let a := areas xs ys in
  let c := Fin 0 :: map (fun i => nsum (S i) (fun j => nth j a NaN)) (seq 0 (length a)) in
  map (fun v => ndiv v (last c NaN)) c.
(** PiecewiseLinearDist.sample, :304-350, for a uniform number [u] from torch.rand *)
Definition pl_sample_continuous (xs : list R) (ys : list num) (u : R) : num :=
  let cdf := pl_cdf xs ys in
  let i := Nat.min (Nat.max (search_right cdf u) 1) (length xs - 1) in
  let x0 := nth (i - 1) xs 0 in let x1 := nth i xs 0 in
  let c0 := nth (i - 1) cdf NaN in let c1 := nth i cdf NaN in
  let slope := ndiv (Fin (x1 - x0)) (nadd (nsub c1 c0) (Fin (/ 10 ^ 8))) in
  nadd (Fin x0) (nmul slope (nsub (Fin u) c0)).
(** The categorical draw returns a position; its probability is the height divided by the sum of the heights. *)
Definition pl_discrete_prob (ys : list num) (k : nat) : num :=
  let h := removelast (tl ys) in
  ndiv (nth k h NaN) (nsum (length h) (fun i => nth i h NaN)).
Definition pl_sample_discrete (k : nat) : R := INR k.

(** :83-96: the weights of a repetition, from the predicted clusters.  bincount has one entry per value up to the
    largest prediction; the assignment to a row of [num_leaves] entries needs that many entries, or one. *)
Definition bincount (pred : list nat) : list nat :=
  map (fun k => length (filter (Nat.eqb k) pred)) (seq 0 (match pred with [] => 0 | _ => S (list_max pred) end)).
Definition pl_mixture_weights (num_leaves : nat) (pred : list nat) : res (list R) :=
  let c := bincount pred in
  let w := map (fun n => INR n / INR (list_sum c)) c in
  if (length w =? num_leaves)%nat then Ok w
  else if (length w =? 1)%nat then Ok (repeat (hd 0 w) num_leaves)
  else Err RuntimeErr.
