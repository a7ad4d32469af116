(** ProductLayer and CrossProductLayer.  Source: simple_einet/layers/product.py:32-277
    (no class of the library builds them; they are part of its public layers). *)
From Coq Require Import List Arith Lia Bool Reals.
Import ListNotations.
From Verif Require Import Base RSum Num Tensor Layers.

(** F.pad(x, pad=(0, 0, 0, 0, 0, p), value=0): zeros at the end of the third axis from the right. *)
Definition pad_third (p : nat) (x : tensor num) : res (tensor num) :=
  if dim x <? 3 then Err RuntimeErr else
  let a := dim x - 3 in
  Ok (mkT (set_nth a (size x a + p) (shape x))
          (fun idx => if nth a idx 0 <? size x a then get x idx else Fin 0)).

(** F.conv3d(x.unsqueeze(1), ones(1, 1, k, 1, 1), stride=(k, 1, 1)).squeeze(1) for x of rank 4. *)
Definition conv_ones (k n d c r : nat) (x : tensor num) : res (tensor num) :=
  if d <? k then Err RuntimeErr else
  Ok (mkT [n; (d - k) / k + 1; c; r] (fun idx => match idx with
    | [n0; o; c0; r0] => nsum k (fun j => get x [n0; k * o + j; c0; r0])
    | _ => NaN end)).

(** product.py:61 *)
Definition prod_pad (nfeat card : nat) : nat := (card - nfeat mod card) mod card.

(** product.py:71-106 *)
Definition prod_forward (nfeat card : nat) (x : tensor num) : res (tensor num) :=
  if card =? size x 1 then Ok (tsum_keep 1 x)
  else if card =? 1 then Ok x
  else
    x <- (if 0 <? prod_pad nfeat card then pad_third (prod_pad nfeat card) x else Ok x) ;;
    '(n, d, c, r) <- size4 x ;;
    result <- conv_ones card n d c r x ;;
    _ <- assert (eqb_list (shape result) [n; d / card; c; r]) ;;
    Ok result.

(** [ctx.is_root]: the dataclass SamplingContext has no such field (sampling_utils.py:73-123),
    so reading it raises. *)
Definition ctx_is_root (c : sctx) : res bool := Err AttributeErr.

(** product.py:108-141; [is_root] is the value read from the context. *)
Definition prod_sample_at (is_root : res bool) (nfeat card nrep : nat) (c : sctx) : res sctx :=
  root <- is_root ;;
  if root : bool then
    if nrep =? 1
    then Ok (mkCtx (c_n c) (full [c_n c; 1] 0) (full [c_n c] 0) (c_mpe c) (c_tsum c))
    else Err GenericExc
  else
    let indices := repeat_interleave 1 card (c_out c) in
    let indices := if prod_pad nfeat card =? 0 then indices
                   else take 1 (size indices 1 - prod_pad nfeat card) indices in
    Ok (set_out c indices).
Definition prod_sample (nfeat card nrep : nat) (c : sctx) : res sctx :=
  prod_sample_at (ctx_is_root c) nfeat card nrep c.

(** self._scopes[j]: the j-th member of each consecutive pair; the index past the end stands for
    a marginalized feature.  product.py:187-204 *)
Definition cross_scope (nfeat j : nat) : list nat :=
  map (fun i => if 2 * i + j <? nfeat then 2 * i + j else nfeat) (seq 0 ((nfeat + 1) / 2)).

(** product.py:219-257.  np.int does not exist in current numpy: reaching it raises. *)
Definition cross_forward (nfeat : nat) (x : tensor num) : res (tensor num) :=
  if negb (nfeat =? size x 1) then Err AttributeErr
  else
    '(n, d, c, r) <- size4 x ;;
    let tl j := mkT [length (cross_scope nfeat j)] (fun idx => nth (nth 0 idx 0) (cross_scope nfeat j) 0) in
    left <- index_dim 1 (tl 0) x ;;
    right <- index_dim 1 (tl 1) x ;;
    s <- badd (unsqueeze 3 left) (unsqueeze 2 right) ;;
    result <- view [n; d / 2; c * c; r] s ;;
    _ <- assert (eqb_list (shape result) [n; d / 2; c * c; r]) ;;
    Ok result.

(** product.py:259-274; self._pad is 0 unless np.int was reached. *)
Definition cross_sample_at (is_root : res bool) (chan nrep : nat) (c : sctx) : res sctx :=
  root <- is_root ;;
  if root : bool then
    if nrep =? 1
    then Ok (mkCtx (c_n c) (full [c_n c; 1] 0) (full [c_n c] 0) (c_mpe c) (c_tsum c))
    else Err GenericExc
  else
    let t := mkT (shape (c_out c) ++ [2])
                 (fun idx => table_lookup chan (get (c_out c) (removelast idx)) (last idx 0)) in
    i <- view_infer [size t 0] [] t ;;
    Ok (set_out c i).
Definition cross_sample (chan nrep : nat) (c : sctx) : res sctx := cross_sample_at (ctx_is_root c) chan nrep c.
