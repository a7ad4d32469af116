(** Vocabulary for leaves of any kind: an integral is a positive linear functional, given as a relation between functions and numbers, and the integral over
    the missing entries of a row is taken entry by entry.  Nothing here refers to circuits or to the proofs. *)
From Coq Require Import List Arith Lia Bool Reals Lra.
Import ListNotations.
From Verif Require Import Base RSum Num Tensor Prob Layers Leaf Einet Spec.
Local Open Scope R_scope.

(** [Int f a]: the integral of [f] exists and is [a]. *)
Record linear_integral {V} (Int : (V -> R) -> R -> Prop) : Prop := {
  li_ext : forall f g a, (forall v, f v = g v) -> Int f a -> Int g a;
  li_plus : forall f g a b, Int f a -> Int g b -> Int (fun v => f v + g v) (a + b);
  li_scal : forall k f a, Int f a -> Int (fun v => k * f v) (k * a);
  li_pos : forall f a, (forall v, 0 <= f v) -> Int f a -> 0 <= a;
  li_unique : forall f a b, Int f a -> Int f b -> a = b }.

(** A row of data: channel, feature, value or nothing. *)
Definition partial (V : Type) := nat -> nat -> option V.
Definition fill {V} (z : partial V) (c0 f0 : nat) (v : V) : partial V := fun c f =>
  if (c =? c0)%nat && (f =? f0)%nat then Some v else z c f.
(** [integrates Int h ps z a]: the iterated integral of [h] over the entries [ps] of [z], innermost last, is [a].  Every
    entry may have its own reference measure. *)
Inductive integrates {V} (Int : nat -> nat -> (V -> R) -> R -> Prop) (h : partial V -> R) : list (nat * nat) -> partial V -> R -> Prop :=
| int_nil z : integrates Int h [] z (h z)
| int_cons c f ps z g a : (forall v, integrates Int h ps (fill z c f v) (g v)) -> Int c f g a -> integrates Int h ((c, f) :: ps) z a.
(** [ps] lists the missing entries of a row of [C] channels and [F] features, in any order. *)
Definition missing {V} (C F : nat) (z : partial V) (ps : list (nat * nat)) : Prop :=
  NoDup ps /\ forall c f, In (c, f) ps <-> (c < C)%nat /\ (f < F)%nat /\ z c f = None.
(** A row as a batch. *)
Definition row_tensor {V} (C F : nat) (z : partial V) : tensor (option V) :=
  mkT [1; C; F]%nat (fun idx => match idx with [_; c; f] => z c f | _ => None end).

(** The density of a leaf component; zero outside the support. *)
Definition dens {V} (lf : bleaf V) (c f l r : nat) (v : V) : R :=
  if lf_supp lf v then pval (lf_logp lf [c; f; l; r] v) else 0.
(** Leaves whose densities have total mass one. *)
Record density_leaf {V} (Int : nat -> nat -> (V -> R) -> R -> Prop) (lf : bleaf V) : Prop := {
  dn_linear : forall c f, (c < lf_C lf)%nat -> (f < lf_F lf)%nat -> linear_integral (Int c f);
  dn_total : forall c f l r, (c < lf_C lf)%nat -> (f < lf_F lf)%nat -> (l < lf_L lf)%nat -> (r < lf_R lf)%nat ->
    Int c f (dens lf c f l r) 1 }.
(** [EL] is the expectation under the leaf densities for the test function [h] at channel [c] and feature [f]. *)
Definition leaf_law {V} (Int : nat -> nat -> (V -> R) -> R -> Prop) (lf : bleaf V) (EL : list nat -> (V -> R) -> R) (c f : nat) (h : V -> R) : Prop :=
  (forall v, 0 <= h v) /\ forall l r, (l < lf_L lf)%nat -> (r < lf_R lf)%nat ->
    Int c f (fun v => dens lf c f l r v * h v) (EL [c; f; l; r] h).
(** The product of a test function per entry; missing entries count one. *)
Definition tests {V} (C F : nat) (h : nat -> nat -> V -> R) (z : partial V) : R :=
  rprod C (fun c => rprod F (fun f => match z c f with Some v => h c f v | None => 1 end)).
