(** Vocabulary of the final theorems: accepted networks, discrete leaves, likelihoods of data points,
    sums over all data points.  Nothing here refers to circuits or to the proofs. *)
From Coq Require Import List Arith Lia Bool Reals Lra.
Import ListNotations.
From Verif Require Import Base RSum Num Tensor Prob Layers Circuit Net RefFwd Leaf RefLeaf Einet RefNet RefEinet RefEinetS Build RefBuild.
Local Open Scope R_scope.

(** A network the constructor returned, with a univariate leaf class. *)
Record accepted {V} (g : config) (o : oracle V) (E : einet V) : Prop := {
  ac_card : g_card g = None;
  ac_oracle : oracle_ok g o;
  ac_build : build g o = Ok E }.
Definition leafE {V} (E : einet V) : bleaf V := leaf_of (e_leaf E).

(** Leaves on the values 0 .. B-1 whose probabilities sum to one. *)
Record discrete_leaf (B : nat) (lf : bleaf nat) : Prop := {
  dl_supp : forall v, lf_supp lf v = (v <? B)%nat;
  dl_sum : forall c f l r, (c < lf_C lf)%nat -> (f < lf_F lf)%nat -> (l < lf_L lf)%nat -> (r < lf_R lf)%nat ->
    rsum B (fun v => pval (lf_logp lf [c; f; l; r] v)) = 1 }.

(** exp(einet(x, marginalized_scopes)[n, k]); zero if the call fails or the entry is not finite. *)
Definition lik {V} (E : einet V) (x : tensor (option V)) (ms : option (list nat)) (n k : nat) : R :=
  match forward E x ms with Ok y => pval (get y [n; k]) | Err _ => 0 end.

(** All vectors of length [n] over 0 .. B-1. *)
Fixpoint vectors (B n : nat) : list (list nat) :=
  match n with O => [[]] | S n' => flat_map (fun v => map (cons v) (vectors B n')) (seq 0 B) end.
(** A vector of C*F values as a batch with one row, channel by channel. *)
Definition point (C F : nat) (w : list nat) : tensor (option nat) :=
  mkT [1; C; F]%nat (fun idx => match idx with [_; c; f] => Some (nth (c * F + f) w 0)%nat | _ => None end).
(** [w] has the value of [z] wherever [z] has one. *)
Definition completes (C F : nat) (z : nat -> nat -> option nat) (w : list nat) : bool :=
  forallb (fun c => forallb (fun f => match z c f with None => true | Some v => (v =? nth (c * F + f) w 0)%nat end) (seq 0 F)) (seq 0 C).
(** Sum of a function over the data points that complete [z]. *)
Definition sum_points (B C F : nat) (z : nat -> nat -> option nat) (h : list nat -> R) : R :=
  lsum h (filter (completes C F z) (vectors B (C * F))).
(** A batch of N rows in one of the accepted layouts, with values in the support of the leaves. *)
Definition batch {V} (E : einet V) (N : nat) (x : tensor (option V)) : Prop :=
  wshape (shape x) N (e_C E) (e_F E) /\
  forall n c f v, (n < N)%nat -> (c < e_C E)%nat -> (f < e_F E)%nat -> entry x n c f = Some v -> lf_supp (leafE E) v = true.
(** Marginalized scopes are features, and only entries in them may be missing. *)
Definition scopes_ok {V} (E : einet V) (N : nat) (x : tensor (option V)) (S : list nat) : Prop :=
  (forall f, In f S -> (f < e_F E)%nat) /\
  forall n c f, (n < N)%nat -> (c < e_C E)%nat -> (f < e_F E)%nat -> ~ In f S -> entry x n c f <> None.
Definition hide (S : list nat) (z : nat -> nat -> option nat) : nat -> nat -> option nat := fun c f =>
  if existsb (Nat.eqb f) S then None else z c f.

(** * Probability of an event when leaves are discrete *)
Definition in_range (lf : bleaf nat) (key : list nat) : bool :=
  match key with
  | [c; f; l; r] => (c <? lf_C lf)%nat && (f <? lf_F lf)%nat && (l <? lf_L lf)%nat && (r <? lf_R lf)%nat
  | _ => false
  end.
(** A leaf component draws [v] with its own probability; there are no other components. *)
Definition leaf_draw (lf : bleaf nat) (key : list nat) (v : nat) : R :=
  if in_range lf key then pval (lf_logp lf key v) else if (v =? 0)%nat then 1 else 0.
Definition Pr (B : nat) (lf : bleaf nat) {A} (m : M nat A) (ev : A -> bool) : R :=
  expect (EL_discrete B (leaf_draw lf)) m (fun a => if ev a then 1 else 0).
(** Row [n] of [t] has the value [xs n c f] at channel [c] and feature [f]. *)
Definition rows_are (N C F : nat) (xs : nat -> nat -> nat -> nat) (t : tensor (option nat)) : bool :=
  forallb (fun n => forallb (fun c => forallb (fun f =>
    match entry t n c f with Some v => (v =? xs n c f)%nat | None => false end) (seq 0 F)) (seq 0 C)) (seq 0 N).
(** Row [n] of a table of data as a batch with one row. *)
Definition one_row (C F : nat) (x : nat -> nat -> nat) : tensor (option nat) :=
  mkT [1; C; F]%nat (fun idx => match idx with [_; c; f] => Some (x c f) | _ => None end).

(** Evidence: a batch with missing entries, or with marginalized scopes. *)
Definition evidence {V} (E : einet V) (N : nat) (e : tensor (option V)) (ms : option (list nat)) : Prop :=
  batch E N e /\ match ms with Some s => scopes_ok E N e s | None => True end.
(** The observed entries of evidence. *)
Definition observed {V} (e : tensor (option V)) (ms : option (list nat)) (n c f : nat) : option V :=
  match ms with
  | Some s => if existsb (Nat.eqb f) s then None else entry e n c f
  | None => entry e n c f
  end.

(** * Groups of leaf layers *)
(** The forward pass of a leaf layer with [Fo] outputs multiplies, at output [d], the likelihoods of the
    features that [grp] puts in group [d]. *)
Definition forward_groups {V} (lf : bleaf V) (Fo : nat) (fw : tensor num -> res (tensor num)) (grp : nat -> nat -> nat) : Prop :=
  forall N t (q : nat -> nat -> nat -> nat -> nat -> R), shape t = [N; lf_C lf; lf_F lf; lf_L lf; lf_R lf] ->
  (forall n c f l r, 0 < q n c f l r) ->
  (forall n c f l r, (n < N)%nat -> (c < lf_C lf)%nat -> (f < lf_F lf)%nat -> (l < lf_L lf)%nat -> (r < lf_R lf)%nat ->
    get t [n; c; f; l; r] = Fin (ln (q n c f l r))) ->
  exists y, fw t = Ok y /\ shape y = [N; Fo; lf_L lf; lf_R lf] /\
  forall n d l r, (n < N)%nat -> (d < Fo)%nat -> (l < lf_L lf)%nat -> (r < lf_R lf)%nat ->
    get y [n; d; l; r] = Fin (ln (rprod (lf_F lf) (fun f => if Nat.eqb (grp r f) d then rprod (lf_C lf) (fun c => q n c f l r) else 1))).
(** Sampling from a leaf layer, given for every row an index per group and a repetition, draws feature [f]
    from the component that the index of the group [grp r f] names. *)
Definition sample_groups {V} (lf : bleaf V) (Fo : nat) (sm : sctx -> M V (tensor V)) (grp : nat -> nat -> nat) : Prop :=
  forall N c (supp : list nat -> V -> Prop) r, (0 < N)%nat ->
  c_n c = N -> shape (c_out c) = [N; Fo] -> shape (c_rep c) = [N] ->
  (forall n d, (n < N)%nat -> (d < Fo)%nat -> (get (c_out c) [n; d] < lf_L lf)%nat) ->
  (forall n, (n < N)%nat -> (get (c_rep c) [n] < lf_R lf)%nat) ->
  outcome supp (sm c) r ->
  exists t, r = Ok t /\ shape t = [N; lf_C lf; lf_F lf] /\
  forall n ch f, (n < N)%nat -> (ch < lf_C lf)%nat -> (f < lf_F lf)%nat ->
    supp [ch; f; get (c_out c) [n; grp (get (c_rep c) [n]) f]; get (c_rep c) [n]] (get t [n; ch; f]).
