(** Leaf layers with cardinality 1: base leaves and the two factorized leaf layers.
    Sources: simple_einet/layers/distributions/abstract_leaf.py, layers/factorized_leaf.py.

    Data entries are [option V]; [None] is a NaN.  Only the non-differentiable branches are here. *)
From Coq Require Import List Arith Lia Bool Reals.
Import ListNotations.
From Verif Require Import Base RSum Num Tensor Prob Layers.

(** A univariate base leaf.  abstract_leaf.py:168-215 (sizes, [nan_placeholder]).  The torch distribution it builds is given
    by its log-probability and mode at every batch position (channel, feature, leaf, repetition), the
    support that [log_prob] validates, and whether [_get_base_distribution] accepts a sampling context
    (bernoulli.py:29 does not, so [AbstractLeaf.sample] raises a TypeError there). *)
Record bleaf (V : Type) : Type := mkLf {
  lf_C : nat; lf_F : nat; lf_L : nat; lf_R : nat;
  lf_logp : list nat -> V -> num;
  lf_supp : V -> bool;
  lf_zero : V;                          (* nan_placeholder *)
  lf_mode : option (list nat -> V);     (* None: dist_mode raises *)
  lf_ctx : bool }.
Arguments mkLf {V}. Arguments lf_C {V}. Arguments lf_F {V}. Arguments lf_L {V}. Arguments lf_R {V}.
Arguments lf_logp {V}. Arguments lf_supp {V}. Arguments lf_zero {V}. Arguments lf_mode {V}. Arguments lf_ctx {V}.

Section Leaf.
Context {V : Type}.

Definition is_nan (o : option V) : bool := match o with None => true | Some _ => false end.

(** abstract_leaf.py:17-42 dist_forward: [unsqueeze(-1).unsqueeze(-1)] for three-dimensional input, then
    [distribution.log_prob], which validates the support and broadcasts against the batch shape. *)
Definition dist_forward (lf : bleaf V) (x : tensor V) : res (tensor num) :=
  let x := if dim x =? 3 then unsq_end 2 x else x in
  _ <- guard (forallb (fun idx => lf_supp lf (get x idx)) (all_idx (shape x))) ValueErr ;;
  bop (fun v key => lf_logp lf key v) x
      (mkT [1; lf_C lf; lf_F lf; lf_L lf; lf_R lf] (fun idx => tl idx)).

(** abstract_leaf.py:236-264 _marginalize_input, cardinality 1.  [x[:, :, s] = 0] raises an
    IndexError for a scope out of range. *)
Definition marginalize_input (x : tensor num) (ms : option (list nat)) : res (tensor num) :=
  match ms with
  | Some s =>
      _ <- guard (forallb (fun f => f <? size x 2) s) IndexErr ;;
      Ok (mkT (shape x) (fun idx => if existsb (Nat.eqb (nth 2 idx 0)) s then Fin 0%R else get x idx))
  | None => Ok (mkT (shape x) (fun idx => if isnan (get x idx) then Fin 0%R else get x idx))
  end.

(** abstract_leaf.py:266-293 AbstractLeaf.forward.  [x[nan_mask] = nan] needs the mask to match the leading
    dimensions. *)
Definition base_forward (lf : bleaf V) (x : tensor (option V)) (ms : option (list nat)) : res (tensor num) :=
  let has_nan := existsb (fun idx => is_nan (get x idx)) (all_idx (shape x)) in
  let x0 := tmap (fun o => match o with Some v => v | None => lf_zero lf end) x in
  y <- dist_forward lf x0 ;;
  y <- (if has_nan then
          _ <- guard (eqb_list (firstn (dim x) (shape y)) (shape x)) IndexErr ;;
          Ok (mkT (shape y) (fun idx => if is_nan (get x (firstn (dim x) idx)) then NaN else get y idx))
        else Ok y) ;;
  marginalize_input y ms.

(** ** FactorizedLeaf, factorized_leaf.py:11-205 *)
(** Group sizes before shuffling, :43-50.  [floor(a / b)] on floats is taken as integer division. *)
Definition group_sizes (F Fo : nat) : list nat :=
  let card := F / Fo in
  let rest := F - card * Fo in
  map (fun i => if i <? rest then card + 1 else card) (seq 0 Fo).
(** The 0/1 scope tensor, :53-65.  [sizes]: the shuffled group sizes; [perm r]: the random permutation of
    repetition [r].  Group [o] takes the positions from the sum of the earlier sizes up to the sum
    including its own; the last group extends to the end. *)
Definition offset (sizes : list nat) (o : nat) : nat := list_sum (firstn o sizes).
Definition in_group (F Fo : nat) (sizes : list nat) (perm : list nat) (f o : nat) : bool :=
  let low := offset sizes o in
  let high := if o =? Fo - 1 then F else low + nth o sizes 0 in
  existsb (Nat.eqb f) (firstn (high - low) (skipn low perm)).
Definition make_scopes (F Fo R : nat) (sizes : list nat) (perms : nat -> list nat) : tensor nat :=
  mkT [F; Fo; R] (fun idx => match idx with
                             | [f; o; r] => if in_group F Fo sizes (perms r) f o then 1 else 0
                             | _ => 0 end).

(** torch.einsum("bicr,ior->bocr", x, scopes); the scopes are floats 0 and 1. *)
Definition einsum_scopes (x : tensor num) (sc : tensor nat) : res (tensor num) :=
  match shape x, shape sc with
  | [b; i; c; r], [i'; o; r'] =>
      if eqb_list [i; r] [i'; r'] then
        Ok (mkT [b; o; c; r] (fun idx => match idx with
              | [b0; o0; c0; r0] =>
                  nsum i (fun i0 => nmul (get x [b0; i0; c0; r0]) (Fin (INR (get sc [i0; o0; r0]))))
              | _ => NaN end))
      else Err RuntimeErr
  | _, _ => Err RuntimeErr
  end.

(** :69-98 FactorizedLeaf.forward after the base leaf *)
Definition fact_forward (lf : bleaf V) (Fo : nat) (sc : tensor nat) (x : tensor num) : res (tensor num) :=
  let x := tsum 1 x in
  if lf_F lf =? Fo then Ok x
  else
    y <- einsum_scopes x sc ;;
    _ <- assert (eqb_list (shape y) [size y 0; Fo; lf_L lf; lf_R lf]) ;;
    Ok y.

(** ** FactorizedLeafSimple, factorized_leaf.py:208-416 *)
Definition ceil_div (a b : nat) : nat := (a + (b - 1)) / b.
Definition simple_card (F Fo : nat) : nat := ceil_div F Fo.                       (* :244 *)
Definition simple_dummy (F Fo : nat) : nat := simple_card F Fo * Fo - F.          (* :247 *)
(** :256-294 FactorizedLeafSimple.forward after the base leaf *)
Definition simple_forward (lf : bleaf V) (Fo : nat) (perm : tensor nat) (x : tensor num) : res (tensor num) :=
  let x := tsum 1 x in
  let dummy := simple_dummy (lf_F lf) Fo in
  x <- (if 0 <? dummy then cat2 1 x (full [size x 0; dummy; size x 2; size x 3] (Fin 0%R)) else Ok x) ;;
  x <- index_dim 1 perm x ;;
  x <- view [size x 0; Fo; simple_card (lf_F lf) Fo; size x 2; size x 3] x ;;
  let x := tsum 2 x in
  _ <- assert (eqb_list (shape x) [size x 0; Fo; lf_L lf; 1]) ;;
  Ok x.

(** torch.argsort of a permutation, as a vector: entry [v] is the position of the [v]-th smallest
    element.  utils.py:23-24, factorized_leaf.py:254. *)
Definition rank (l : list nat) (i : nat) : nat :=
  length (filter (fun j => (nth j l 0 <? nth i l 0) || ((nth j l 0 =? nth i l 0) && (j <? i))) (seq 0 (length l))).
Definition argsort (l : list nat) : list nat :=
  map (fun k => hd 0 (filter (fun i => rank l i =? k) (seq 0 (length l)))) (seq 0 (length l)).
Definition vec (l : list nat) : tensor nat := mkT [length l] (fun idx => nth (hd 0 idx) l 0).

(** ** Sampling *)

(** abstract_leaf.py:95-165 dist_sample without [return_leaf_params].
    [p = None] is [ctx.indices_out = None].  The temperature of the leaves is part of the leaf draw. *)
Definition leaf_mode_or_draw (lf : bleaf V) (N : nat) (mpe : bool) : M V (tensor V) :=
  if mpe then                                                                        (* :108-113 *)
    match lf_mode lf with
    | None => Fail GenericExc
    | Some md =>
        m <~ lift (repeat_t [N; 1; 1; 1; 1] (mkT [1; lf_C lf; lf_F lf; lf_L lf; lf_R lf] (fun idx => md (tl idx)))) ;;
        Ret (unsqueeze 6 (unsqueeze 1 m))
    end
  else                                                                               (* :123-133 *)
    s <~ draw_tensor (lf_zero lf) [N; 1; lf_C lf; lf_F lf; lf_L lf; lf_R lf]
           (fun idx => LeafD (skipn 2 idx) (fun v => Ret v)) ;;
    Ret (unsqueeze 6 s).

Definition leaf_select (s : tensor V) (p : option (tensor nat)) (rep : tensor nat) : res (tensor V) :=
  _ <- assert (size s 1 =? 1) ;;                                                     (* :135-137 *)
  let s := squeeze 1 s in
  let C := size s 1 in let F := size s 2 in let L := size s 3 in
  r1 <- view_infer [] [1; 1; 1; 1; 1] rep ;;                                         (* :146 *)
  r2 <- expand [size r1 0; C; F; L; 1; 1] r1 ;;
  g <- gather 4 r2 s ;;
  let s := squeeze 4 g in
  s <- match p with                                                                  (* :152-160 *)
       | None => Ok s
       | Some p =>
           p1 <- view_infer [] [1; F; 1; 1] p ;;
           p2 <- expand [size p1 0; C; F; 1; 1] p1 ;;
           g <- gather 3 p2 s ;;
           Ok (squeeze 4 g)
       end ;;
  Ok (squeeze (dim s - 1) s).                                                        (* :165 *)

(** abstract_leaf.py:300-312 AbstractLeaf.sample *)
Definition base_sample (lf : bleaf V) (N : nat) (mpe : bool) (p : option (tensor nat)) (rep : tensor nat) : M V (tensor V) :=
  _ <~ lift (guard (lf_ctx lf) TypeErr) ;;
  s <~ leaf_mode_or_draw lf N mpe ;;
  lift (leaf_select s p rep).

(** factorized_leaf.py:129-158 FactorizedLeaf._index_leaf_samples *)
Definition fact_index (lf : bleaf V) (Fo : nat) (sc : tensor nat) (N : nat) (out rep : tensor nat) (s : tensor V) : res (tensor V) :=
  _ <- assert (eqb_list (shape s) [N; lf_C lf; lf_F lf; lf_L lf]) ;;
  sel <- index_dim 2 rep sc ;;
  let sel := permute [2; 0; 1] sel in
  let g := mkT (removelast (shape sel)) (fun idx => list_sum (map (fun o => get sel (idx ++ [o]) * o) (seq 0 Fo))) in
  i <- gather 1 g out ;;
  i <- view_infer [N; 1] [1] i ;;
  i <- expand [size i 0; lf_C lf; size i 2; size i 3] i ;;
  i <- repeat_t [1; 1; 1; 1] i ;;
  s <- gather 3 i s ;;
  Ok (squeeze 3 s).
(** factorized_leaf.py:100-127 FactorizedLeaf.sample *)
Definition fact_sample (lf : bleaf V) (Fo : nat) (sc : tensor nat) (c : sctx) (mpe : bool) : M V (tensor V) :=
  s <~ base_sample lf (c_n c) mpe None (c_rep c) ;;
  lift (fact_index lf Fo sc (c_n c) (c_out c) (c_rep c) s).

(** factorized_leaf.py:325-367 FactorizedLeafSimple._index_leaf_samples *)
Definition simple_index (lf : bleaf V) (Fo : nat) (pinv : tensor nat) (N : nat) (out : tensor nat) (s : tensor V) : res (tensor V) :=
  _ <- assert (eqb_list (shape s) [N; lf_C lf; lf_F lf; lf_L lf]) ;;
  let o := unsqueeze 1 (unsqueeze 1 out) in
  o <- expand [size o 0; lf_C lf; simple_card (lf_F lf) Fo; size o 3] o ;;
  o <- view [size o 0; lf_C lf; lf_F lf + simple_dummy (lf_F lf) Fo] o ;;
  o <- index_dim 2 pinv o ;;
  let o := if 0 <? simple_dummy (lf_F lf) Fo then take 2 (size o 2 - simple_dummy (lf_F lf) Fo) o else o in
  let o := unsqueeze 3 o in
  s <- gather 3 o s ;;
  Ok (squeeze 3 s).
(** factorized_leaf.py:296-323 FactorizedLeafSimple.sample *)
Definition simple_sample (lf : bleaf V) (Fo : nat) (pinv : tensor nat) (c : sctx) (mpe : bool) : M V (tensor V) :=
  s <~ base_sample lf (c_n c) mpe None (c_rep c) ;;
  lift (simple_index lf Fo pinv (c_n c) (c_out c) s).
End Leaf.
