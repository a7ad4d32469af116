(** The sum layers: forward passes and index sampling.
    Sources: simple_einet/abstract_layers.py, layers/einsum.py, layers/linsum.py, layers/sum.py,
    layers/mixing.py, layers/product.py (RootProductLayer).

    Only the non-differentiable branches are here; the one-hot branches are in [Diff.v].
    A training-mode dropout mask is passed explicitly ([None]: evaluation mode or dropout 0);
    the loop that produces it is in [Dropout.v]. *)
From Coq Require Import List Arith Lia Bool Reals.
Import ListNotations.
From Verif Require Import Base RSum Num Tensor Prob.

(** Sizes and parameters of a sum layer.  abstract_layers.py:121-134 *)
Record slay : Type := mkL {
  nf : nat;      (* num_features *)
  sin : nat;     (* num_sums_in *)
  sout : nat;    (* num_sums_out *)
  nrep : nat;    (* num_repetitions *)
  logits : tensor num }.

(** What a layer stores in its input cache during a forward pass. *)
Inductive cache : Type :=
| CLR (left right : tensor num)   (* keys "left", "right" *)
| CIn (x : tensor num).           (* key "in" or "x" *)

(** abstract_layers.py:45-56 logits_to_log_weights *)
Definition logits_to_log_weights (lg : tensor num) (d : nat) (temperature : R) : tensor num :=
  tlog_softmax d (tmap (fun x => ndiv x (Fin temperature)) lg).

(** torch.log(1 - dropout_indices) for a 0/1 mask. *)
Definition log_keep (mask : tensor bool) : tensor num :=
  tmap (fun b : bool => nlog (Fin (1 - if b then 1 else 0)%R)) mask.
Definition apply_mask (mask : option (tensor bool)) (x : tensor num) : res (tensor num) :=
  match mask with None => Ok x | Some m => badd x (log_keep m) end.

(** * LinsumLayer, linsum.py:12-212 *)
Definition linsum_pad (L : slay) : nat := nf L mod 2.                             (* :42 *)
Definition linsum_features_out (L : slay) : nat := (nf L + linsum_pad L) / 2.     (* :57-59 *)
Definition linsum_weight_shape (L : slay) : list nat :=                           (* :61-62 *)
  [linsum_features_out L; sin L; sout L; nrep L].

Definition pad_right (pad : nat) (right : tensor num) : res (tensor num) :=      (* :84-86 *)
  if 0 <? pad
  then cat2 1 right (tmap (fun _ => Fin 0) (take 1 pad right))
  else Ok right.

Definition linsum_forward (L : slay) (mask : option (tensor bool)) (x : tensor num)   (* :64-110 *)
  : res (tensor num * cache) :=
  _ <- size4 x ;;
  let left := slice_step 1 0 2 x in
  right <- pad_right (linsum_pad L) (slice_step 1 1 2 x) ;;
  s <- badd left right ;;
  prod_output <- apply_mask mask (unsqueeze 3 s) ;;
  let log_weights := unsqueeze 0 (logits_to_log_weights (logits L) 1 1) in
  t <- badd prod_output log_weights ;;
  Ok (tlogsumexp 2 t, CLR left right).

(** * LinsumLayer2, linsum.py:215-409 *)
Definition linsum2_weight_shape (L : slay) : list nat := [nf L; sin L; sout L; nrep L].  (* :258-259 *)
Definition linsum2_forward (L : slay) (mask : option (tensor bool)) (x : tensor num)     (* :261-301 *)
  : res (tensor num * cache) :=
  let log_weights := unsqueeze 0 (logits_to_log_weights (logits L) 1 1) in
  t <- badd (unsqueeze 3 x) log_weights ;;
  let sum_output := tlogsumexp 2 t in
  let left := slice_step 1 0 2 sum_output in
  right <- pad_right (linsum_pad L) (slice_step 1 1 2 sum_output) ;;
  prod_output <- badd left right ;;
  out <- apply_mask mask prod_output ;;
  Ok (out, CIn x).

(** * SumLayer, sum.py:10-168 *)
Definition sum_weight_shape (L : slay) : list nat := [nf L; sin L; sout L; nrep L].       (* :59-60 *)
Definition sum_forward (L : slay) (mask : option (tensor bool)) (x : tensor num)          (* :62-87 *)
  : res (tensor num * cache) :=
  xm <- apply_mask mask x ;;
  let log_weights := unsqueeze 0 (logits_to_log_weights (logits L) 1 1) in
  let x3 := unsqueeze 3 xm in
  t <- badd x3 log_weights ;;
  let lls := tlogsumexp 2 t in
  _ <- assert (eqb_list (shape lls) [size x3 0; size x3 1; sout L; nrep L]) ;;
  Ok (lls, CIn x).

(** * EinsumLayer, einsum.py:40-250 *)
Definition einsum_features_out (L : slay) : nat := nf L / 2.                              (* :92-94 *)
Definition einsum_weight_shape (L : slay) : list nat :=                                   (* :96-103 *)
  [einsum_features_out L; sout L; nrep L; sin L; sin L].

(** torch.einsum("ndir,ndjr,dorij->ndor", a, b, w).  Sizes of equal labels must agree
    (PyTorch would also broadcast size 1; that case is treated as an error here). *)
Definition einsum_op (a b w : tensor num) : res (tensor num) :=
  match shape a, shape b, shape w with
  | [n; d; i; r], [n'; d'; j; r'], [d''; o; r''; i'; j'] =>
      if eqb_list [n; d; r; d; r; i; j] [n'; d'; r'; d''; r''; i'; j'] then
        Ok (mkT [n; d; o; r] (fun idx =>
              match idx with
              | [n0; d0; o0; r0] =>
                  nsum i (fun i0 => nsum j (fun j0 =>
                    nmul (nmul (get a [n0; d0; i0; r0]) (get b [n0; d0; j0; r0]))
                         (get w [d0; o0; r0; i0; j0])))
              | _ => NaN
              end))
      else Err RuntimeErr
  | _, _, _ => Err RuntimeErr
  end.

Definition einsum_forward (L : slay) (x : tensor num) : res (tensor num * cache) :=       (* :105-152 *)
  '(_, D, _, _) <- size4 x ;;
  let D_out := D / 2 in
  let left := slice_step 1 0 2 x in
  let right := slice_step 1 1 2 x in
  let left_max := tmax_keep 2 left in
  l0 <- bsub left left_max ;;
  let left_prob := tmap nexp l0 in
  let right_max := tmax_keep 2 right in
  r0 <- bsub right right_max ;;
  let right_prob := tmap nexp r0 in
  lg <- view_infer [D_out; sout L; nrep L] [] (logits L) ;;
  weights <- view (einsum_weight_shape L) (tsoftmax 3 lg) ;;
  prob <- einsum_op left_prob right_prob weights ;;
  p1 <- badd (tmap nlog prob) left_max ;;
  p2 <- badd p1 right_max ;;
  Ok (p2, CLR left right).

(** * MixingLayer, mixing.py:11-125 *)
Definition mixing_weight_shape (L : slay) : list nat := [nf L; sout L; sin L].            (* :40-41 *)
Definition mixing_forward (L : slay) (mask : option (tensor bool)) (x : tensor num)       (* :43-65 *)
  : res (tensor num * cache) :=
  xm <- apply_mask mask x ;;
  let log_weights := unsqueeze 0 (logits_to_log_weights (logits L) 2 1) in
  t <- badd xm log_weights ;;
  Ok (tlogsumexp 3 t, CIn x).

(** * RootProductLayer, product.py:16-29 *)
Definition rootprod_forward (nfeat : nat) (x : tensor num) : res (tensor num) :=          (* :21-23 *)
  _ <- assert (size x 1 =? nfeat) ;; Ok (tsum_keep 1 x).

(** * Sampling *)

(** The part of SamplingContext that the layers read and write.  sampling_utils.py:73-123 *)
Record sctx : Type := mkCtx {
  c_n : nat;                 (* num_samples *)
  c_out : tensor nat;        (* indices_out *)
  c_rep : tensor nat;        (* indices_repetition *)
  c_mpe : bool;              (* is_mpe *)
  c_tsum : R }.              (* temperature_sums *)
Definition set_out (c : sctx) (o : tensor nat) : sctx := mkCtx (c_n c) o (c_rep c) (c_mpe c) (c_tsum c).

(** abstract_layers.py:176-189 and 165-174 (the check of a missing repetition index comes
    too late in the source to matter: the context always carries one). *)
Definition check_context (fout : nat) (c : sctx) : res unit :=
  _ <- assert (size (c_out c) 0 =? c_n c) ;;
  _ <- assert (size (c_out c) 1 =? fout) ;;
  _ <- assert (size (c_rep c) 0 =? c_n c) ;;
  _ <- assert (dim (c_out c) =? 2) ;;
  _ <- assert (dim (c_rep c) =? 1) ;;
  assert (size (c_rep c) 0 =? size (c_out c) 0).

(** t[..., None, ..., None] with [k] new trailing dimensions. *)
Fixpoint unsq_end {A} (k : nat) (t : tensor A) : tensor A :=
  match k with O => t | S k' => unsq_end k' (unsqueeze (dim t) t) end.

(** Gathering of a weight tensor (D, Sin, Sout, R) at parent and repetition indices; the same code
    in linsum.py:179-195, sum.py:107-122 and linsum.py:370-392. [p] are the parent indices. *)
Definition select_disor (lg : tensor num) (n d si r : nat) (p rep : tensor nat) : res (tensor num) :=
  e <- expand (n :: shape lg) (unsqueeze 0 lg) ;;
  let p1 := unsq_end 3 p in
  p2 <- expand [size p1 0; size p1 1; si; size p1 3; r] p1 ;;
  g <- gather 3 p2 e ;;
  let g := squeeze 3 g in
  let r1 := unsq_end 3 rep in
  r2 <- expand [size r1 0; d; si; size r1 3] r1 ;;
  g2 <- gather 3 r2 g ;;
  let g2 := squeeze 3 g2 in
  _ <- assert (eqb_list (shape g2) [n; d; si]) ;;
  Ok g2.

(** linsum.py:160-199 *)
Definition linsum_select (L : slay) (c : sctx) : res (tensor num) :=
  g <- select_disor (logits L) (c_n c) (linsum_features_out L) (sin L) (nrep L) (c_out c) (c_rep c) ;;
  Ok (logits_to_log_weights g 2 (c_tsum c)).
(** sum.py:89-126 *)
Definition sum_select (L : slay) (c : sctx) : res (tensor num) :=
  g <- select_disor (logits L) (c_n c) (nf L) (sin L) (nrep L) (c_out c) (c_rep c) ;;
  Ok (logits_to_log_weights g 2 (c_tsum c)).
(** linsum.py:345-396 *)
Definition linsum2_select (L : slay) (c : sctx) : res (tensor num) :=
  let p := repeat_interleave 1 2 (c_out c) in
  let p := if 0 <? linsum_pad L then take 1 (size p 1 - linsum_pad L) p else p in
  g <- select_disor (logits L) (c_n c) (nf L) (sin L) (nrep L) p (c_rep c) ;;
  Ok (logits_to_log_weights g 2 (c_tsum c)).
(** einsum.py:200-241 *)
Definition einsum_select (L : slay) (c : sctx) : res (tensor num) :=
  let lg := logits L in
  e <- expand (c_n c :: shape lg) (unsqueeze 0 lg) ;;
  let p1 := unsq_end 4 (c_out c) in
  p2 <- expand [size p1 0; size p1 1; size p1 2; nrep L; sin L; sin L] p1 ;;
  g <- gather 2 p2 e ;;
  let g := squeeze 2 g in
  let r1 := unsq_end 4 (c_rep c) in
  r2 <- expand [size r1 0; einsum_features_out L; size r1 2; sin L; sin L] r1 ;;
  g2 <- gather 2 r2 g ;;
  let g2 := squeeze 2 g2 in
  _ <- assert (eqb_list (shape g2) [c_n c; einsum_features_out L; sin L; sin L]) ;;
  v <- view [size g2 0; size g2 1; sin L * sin L] g2 ;;
  Ok (logits_to_log_weights v 2 (c_tsum c)).
(** mixing.py:99-120 *)
Definition mixing_select (L : slay) (c : sctx) : res (tensor num) :=
  let lg := logits L in
  e <- expand (c_n c :: shape lg) (unsqueeze 0 lg) ;;
  let p1 := unsq_end 2 (c_out c) in
  p2 <- expand [size p1 0; size p1 1; size p1 2; sin L] p1 ;;
  g <- gather 2 p2 e ;;
  let g := squeeze 2 g in
  _ <- assert (eqb_list (shape g) [c_n c; nf L; sin L]) ;;
  Ok (logits_to_log_weights g 2 (c_tsum c)).

(** log_posterior = log_prior + lls, renormalized along dim 2; identical in all layers,
    e.g. linsum.py:154-157. *)
Definition renormalize (log_prior lls : tensor num) : res (tensor num) :=
  p <- badd log_prior lls ;; bsub p (tlogsumexp_keep 2 p).

(** Repetition gather of a cached input (N, D, S, R), e.g. linsum.py:149-152, sum.py:150-152. *)
Definition rep_gather (x : tensor num) (d si : nat) (rep : tensor nat) : res (tensor num) :=
  let r1 := unsq_end 3 rep in
  r2 <- expand [size r1 0; d; si; size r1 3] r1 ;;
  g <- gather 3 r2 x ;;
  Ok (squeeze 3 g).

Definition einsum_condition (L : slay) (c : sctx) (ca : cache) (lw : tensor num) : res (tensor num) := (* einsum.py:178-198 *)
  match ca with
  | CLR cl cr =>
      ll <- rep_gather cl (einsum_features_out L) (sin L) (c_rep c) ;;
      lr <- rep_gather cr (einsum_features_out L) (sin L) (c_rep c) ;;
      s <- badd (unsqueeze 3 ll) (unsqueeze 2 lr) ;;
      lls <- view [c_n c; einsum_features_out L; sin L * sin L] s ;;
      renormalize lw lls
  | _ => Err KeyErr
  end.
Definition linsum_condition (L : slay) (c : sctx) (ca : cache) (lw : tensor num) : res (tensor num) := (* linsum.py:138-158 *)
  match ca with
  | CLR cl cr =>
      ll <- rep_gather cl (linsum_features_out L) (sin L) (c_rep c) ;;
      lr <- rep_gather cr (linsum_features_out L) (sin L) (c_rep c) ;;
      s <- badd ll lr ;;
      lls <- view [c_n c; linsum_features_out L; sin L] s ;;
      renormalize lw lls
  | _ => Err KeyErr
  end.
(** linsum.py:327-343 and sum.py:142-158 *)
Definition sum_condition (L : slay) (c : sctx) (ca : cache) (lw : tensor num) : res (tensor num) :=
  match ca with
  | CIn x => lls <- rep_gather x (nf L) (sin L) (c_rep c) ;; renormalize lw lls
  | _ => Err KeyErr
  end.
Definition mixing_condition (L : slay) (c : sctx) (ca : cache) (lw : tensor num) : res (tensor num) := (* mixing.py:81-97 *)
  match ca with
  | CIn x =>
      let p1 := unsq_end 2 (c_out c) in
      p2 <- expand [size p1 0; 1; 1; sin L] p1 ;;
      g <- gather 2 p2 x ;;
      renormalize lw (squeeze 2 g)
  | _ => Err KeyErr
  end.

Section Sampling.
Context {V : Type}.

(** argmax(dim=2) or a categorical draw: einsum.py:166-171, linsum.py:121-126, sum.py:134-139,
    mixing.py:73-78 *)
Definition choose (c : sctx) (lw : tensor num) : M V (tensor nat) :=
  if c_mpe c then Ret (targmax 2 lw) else categorical lw.

(** self.unraveled_channel_indices: row k of the table [(i, j) for i in range(S) for j in range(S)].
    einsum.py:70-73 *)
Definition unraveled_table (s : nat) : list (nat * nat) :=
  flat_map (fun i => map (fun j => (i, j)) (seq 0 s)) (seq 0 s).
Definition table_lookup (s : nat) (k : nat) (col : nat) : nat :=
  let '(i, j) := nth k (unraveled_table s) (0, 0) in if col =? 0 then i else j.

Definition einsum_indices (L : slay) (c : sctx) (lw : tensor num) : M V (tensor nat) :=   (* einsum.py:165-176 *)
  k <~ choose c lw ;;
  let t := mkT (shape k ++ [2]) (fun idx => table_lookup (sin L) (get k (removelast idx)) (last idx 0)) in
  lift (view_infer [c_n c] [] t).
Definition linsum_indices (L : slay) (c : sctx) (lw : tensor num) : M V (tensor nat) :=   (* linsum.py:120-136 *)
  k <~ choose c lw ;;
  let k := repeat_interleave 1 2 k in
  i <~ lift (view_infer [c_n c] [] k) ;;
  Ret (if 0 <? linsum_pad L then take 1 (size i 1 - linsum_pad L) i else i).
Definition linsum2_indices (L : slay) (c : sctx) (lw : tensor num) : M V (tensor nat) :=  (* linsum.py:310-325 *)
  k <~ choose c lw ;;
  i <~ lift (view_infer [c_n c] [] k) ;;
  Ret (if 0 <? linsum_pad L then take 1 (size i 1 - linsum_pad L) i else i).

(** AbstractSumLayer.sample, abstract_layers.py:191-206: check, select, condition if the input
    cache is enabled and filled, draw. *)
Definition sample_with (fout : nat)
  (sel : sctx -> res (tensor num))
  (cond : sctx -> cache -> tensor num -> res (tensor num))
  (draw : sctx -> tensor num -> M V (tensor nat))
  (ca : option cache) (c : sctx) : M V sctx :=
  _ <~ lift (check_context fout c) ;;
  lw <~ lift (sel c) ;;
  lw <~ lift (match ca with None => Ok lw | Some x => cond c x lw end) ;;
  i <~ draw c lw ;;
  Ret (set_out c i).

Definition einsum_sample (L : slay) := sample_with (einsum_features_out L) (einsum_select L) (einsum_condition L) (einsum_indices L).
Definition linsum_sample (L : slay) := sample_with (linsum_features_out L) (linsum_select L) (linsum_condition L) (linsum_indices L).
Definition linsum2_sample (L : slay) := sample_with (linsum_features_out L) (linsum2_select L) (sum_condition L) (linsum2_indices L).
Definition sum_sample (L : slay) := sample_with (nf L) (sum_select L) (sum_condition L) choose.
Definition mixing_sample (L : slay) := sample_with (nf L) (mixing_select L) (mixing_condition L) choose.

(** RootProductLayer.sample, product.py:25-29 *)
Definition rootprod_sample (nfeat : nat) (c : sctx) : M V sctx :=
  o <~ lift (repeat_t (set_nth 1 nfeat (repeat 1 (dim (c_out c)))) (c_out c)) ;;
  Ret (set_out c o).
End Sampling.
