(** SumConv: a sum layer whose weights are shared between the patches of an image.  Source: conv_pc.py:143-297.

    The class is in the public module but no other class builds it (conv_pc.py:453 is commented out).  The assertions on the
    shape after a view (:178, :251) hold by construction of the view; :259 is kept.  [_sample_from_weights] (:285-289) is
    that of SumLayer with hard=False, see ConvPc.simple_draw.  num_samples of the context is the batch size of indices_out. *)
From Coq Require Import List Arith Bool Reals.
Import ListNotations.
From Verif Require Import Base RSum Num Tensor Prob Layers Diff ConvPc.
Local Open Scope nat_scope.

(** :144-149 *)
Record sconv : Type := mkSC { sc_in : nat; sc_out : nat; sc_k : nat; sc_logits : tensor num }.

(** :155-189 *)
Definition sconv_forward (s : sconv) (x : tensor num) : res (tensor num) :=
  '(N, C, H, W) <- size4 x ;;
  let K := sc_k s in
  _ <- guard (negb (K =? 0)) ZeroDivErr ;;
  _ <- assert (H mod K =? 0) ;;
  _ <- assert (W mod K =? 0) ;;
  let log_weights := unsqueeze 0 (tlog_softmax 1 (sc_logits s)) in
  x <- view [N; C; H / K; K; W / K; K] x ;;
  let x := permute [0; 1; 2; 4; 3; 5] x in
  x <- view [N; 1; C; H / K; W / K; K; K] x ;;
  log_weights <- view [1; sc_out s; sc_in s; 1; 1; K; K] log_weights ;;
  y <- badd x log_weights ;;
  let y := tlogsumexp 2 y in
  let y := permute [0; 1; 2; 4; 3; 5] y in
  view [N; sc_out s; H; W] y.

(** :236-266 _select_weights, [p] is ctx.indices_out; the rest of the method is not reached. *)
Definition sconv_select (s : sconv) (T : R) (p : tensor num) : res (tensor num) :=
  '(Co, Ci, _, K) <- size4 (sc_logits s) ;;
  let N := size p 0 in let H := size p 2 in let W := size p 3 in
  let x := unsqueeze 2 p in
  _ <- guard (negb (K =? 0)) ZeroDivErr ;;
  x <- view [N; Co; H / K; K; W / K; K] x ;;
  let x := permute [0; 1; 2; 4; 3; 5] x in
  x <- view [N; Co; 1; H / K; W / K; K; K] x ;;
  lg <- view [1; Co; Ci; 1; 1; K; K] (unsqueeze 0 (sc_logits s)) ;;
  lg <- index_one_hot 1 lg x ;;
  _ <- assert (eqb_list (shape lg) [N; Ci; H / K; W / K; K; K]) ;;
  let lg := permute [0; 1; 2; 4; 3; 5] lg in
  lg <- view [N; Ci; H; W] lg ;;
  Ok (logits_to_log_weights lg 2 T).

Section Sample.
Context {V : Type}.
(** :213-234; [ca] is the cached input when the cache is enabled and filled. *)
Definition sconv_sample (s : sconv) (T : R) (mpe : bool) (ca : option (tensor num)) (p : tensor num) : M V (tensor num) :=
  lw <~ lift (sconv_select s T p) ;;
  lw <~ lift (match ca with None => Ok lw | Some x => csum_condition x lw end) ;;
  simple_draw mpe lw 1.
End Sample.
