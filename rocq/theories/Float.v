(** The forward pass in floating-point arithmetic.

    Layers.v and Einet.v compute with exact real numbers (and infinities).  Here every operation rounds: [arith] collects the
    arithmetic operations that the forward passes call, with arbitrary results, and [accurate] bounds their errors in the usual way
    (relative error [u], underflow [eta]; overflow is not modelled).  The functions below repeat the arithmetic of the forward
    passes for one row, entry by entry; which entries are combined is the subject of Layers.v and RefFwd.v.

    Sources: layers/einsum.py:105-152, layers/linsum.py:64-110 and 261-301, layers/sum.py:62-87, layers/mixing.py:43-65,
    layers/product.py:21-23, layers/factorized_leaf.py:58-98 and 253-294, einet.py:121-219.
    torch.logsumexp and F.log_softmax subtract the maximum first (ATen/native/ReduceOps.cpp, SoftMax.cpp). *)
From Coq Require Import List Arith Lia Bool Reals.
Import ListNotations.
From Verif Require Import Base RSum Num Tensor Layers Leaf Einet RefEinet.
Local Open Scope R_scope.

Record arith : Type := mkArith {
  fadd : R -> R -> R; fsub : R -> R -> R; fmul : R -> R -> R;
  fexp : R -> R; flog : R -> R;
  fsum : nat -> (nat -> R) -> R;                 (* a sum of n terms, in any order *)
  fsoftmax : nat -> (nat -> R) -> nat -> R;      (* torch.softmax *)
  flogsoftmax : nat -> (nat -> R) -> nat -> R }. (* F.log_softmax *)

(** [u]: relative error of the elementary operations; [eta]: absolute error when a result underflows (sums do not underflow);
    [g n]: relative error of a sum of [n] terms; [uw n]: error of the softmax routines on [n] logits between [-Lam] and [Lam]. *)
Record accurate (A : arith) (Lam u eta : R) (uw g : nat -> R) : Prop := {
  ac_add : forall a b, Rabs (fadd A a b - (a + b)) <= u * Rabs (a + b);
  ac_sub : forall a b, Rabs (fsub A a b - (a - b)) <= u * Rabs (a - b);
  ac_mul : forall a b, Rabs (fmul A a b - a * b) <= u * Rabs (a * b) + eta;
  ac_exp : forall x, x <= 0 -> Rabs (fexp A x - exp x) <= u * exp x + eta;
  ac_log : forall x, 0 < x -> Rabs (flog A x - ln x) <= u * Rabs (ln x);
  ac_sum : forall n f, Rabs (fsum A n f - rsum n f) <= g n * rsum n (fun i => Rabs (f i));
  ac_soft : forall n f k, (k < n)%nat -> (forall i, (i < n)%nat -> Rabs (f i) <= Lam) ->
    Rabs (fsoftmax A n f k - rsoftmax n f k) <= uw n * rsoftmax n f k + eta;
  ac_lsoft : forall n f k, (k < n)%nat -> (forall i, (i < n)%nat -> Rabs (f i) <= Lam) ->
    Rabs (flogsoftmax A n f k - ln (rsoftmax n f k)) <= uw n }.

(** torch.max is exact. *)
Fixpoint rmaxn (n : nat) (f : nat -> R) : R :=
  match n with O => 0 | S O => f O | S n' => Rmax (rmaxn n' f) (f n') end.

Section Pass.
Variable A : arith.
(** torch.logsumexp along a dimension of size [n] *)
Definition flse (n : nat) (x : nat -> R) : R :=
  let m := rmaxn n x in fadd A (flog A (fsum A n (fun i => fexp A (fsub A (x i) m)))) m.

(** Log-values: output feature, channel, repetition *)
Definition lvals := nat -> nat -> nat -> R.
(** einsum.py:117-148, one output entry; [lg k] are the logits of the pair (k / s, k mod s) *)
Definition feinsum (s : nat) (lg : nat -> R) (left right : nat -> R) : R :=
  let ml := rmaxn s left in
  let pl i := fexp A (fsub A (left i) ml) in
  let mr := rmaxn s right in
  let pr j := fexp A (fsub A (right j) mr) in
  let w := fsoftmax A (s * s) lg in
  let prob := fsum A (s * s) (fun k => fmul A (fmul A (pl (k / s)%nat) (pr (k mod s)%nat)) (w k)) in
  fadd A (fadd A (flog A prob) ml) mr.
(** linsum.py:78-106 *)
Definition flinsum (s : nat) (lg : nat -> R) (left right : nat -> R) : R :=
  flse s (fun i => fadd A (fadd A (left i) (right i)) (flogsoftmax A s lg i)).
(** sum.py:71-82, linsum.py:272-281, mixing.py:52-62 *)
Definition fwsum (s : nat) (lg : nat -> R) (x : nat -> R) : R :=
  flse s (fun i => fadd A (x i) (flogsoftmax A s lg i)).

Definition lgR (lg : tensor num) (idx : list nat) : R := toR (get lg idx).
(** The padding feature of linsum.py:84-86 has the log-value 0. *)
Definition at_pad (n : nat) (v : lvals) (d s r : nat) : R := if (d <? n)%nat then v d s r else 0.
Definition flayer (l : layer) (v : lvals) : lvals := fun d o r =>
  match l with
  | LEin L => feinsum (sin L) (fun k => lgR (logits L) [d; o; r; k / sin L; k mod sin L]%nat) (fun i => v (2 * d)%nat i r) (fun j => v (2 * d + 1)%nat j r)
  | LLin L => flinsum (sin L) (fun k => lgR (logits L) [d; k; o; r]) (fun i => v (2 * d)%nat i r) (fun i => at_pad (nf L) v (2 * d + 1) i r)
  | LLin2 L =>
      let y d := fwsum (sin L) (fun k => lgR (logits L) [d; k; o; r]) (fun i => v d i r) in
      fadd A (y (2 * d)%nat) (y (2 * d + 1)%nat)
  | LSum L => fwsum (sin L) (fun k => lgR (logits L) [d; k; o; r]) (fun i => v d i r)
  | LRoot D => fsum A D (fun d' => v d' o r)
  end.
Definition flayers (ls : list layer) (v : lvals) : lvals := fold_left (fun v l => flayer l v) ls v.

(** The leaf layer: the sum over the channels, then over the features of a group.  [q c f l r] is the log-probability that the leaf
    returned for its entry (zero if it is missing); [grp r f] is the group of feature [f]. *)
Definition fleaf (C F : nat) (grp : nat -> nat -> nat) (q : nat -> nat -> nat -> nat -> R) : lvals := fun d l r =>
  fsum A F (fun f => if (grp r f =? d)%nat then fsum A C (fun c => q c f l r) else 0).
(** einet.py:189-204: the mixing layer, or the only repetition *)
Definition froot (Rn : nat) (mix : option slay) (v : lvals) (y : nat) : R :=
  match mix with
  | Some m => if (1 <? Rn)%nat then fwsum (sin m) (fun k => lgR (logits m) [0; y; k]%nat) (fun r => v 0%nat y r) else v 0%nat y 0%nat
  | None => v 0%nat y 0%nat
  end.

(** einet.py:121-219 for one row.  [q c f l r] is the output of the leaf distribution. *)
Definition fforward {V} (E : einet V) (q : nat -> nat -> nat -> nat -> R) (k : nat) : R :=
  froot (e_R E) (e_mixing E) (flayers (e_layers E) (fleaf (e_C E) (e_F E) (fgrp E) q)) k.
End Pass.
