(** Leaves over groups of features: the multivariate normal layer and the factorized leaf layers above it.
    Sources: simple_einet/layers/distributions/multivariate_normal.py, abstract_leaf.py, layers/factorized_leaf.py.

    The torch distributions are given by their log-density and mean at every position (channel, group, leaf, repetition);
    they take and return vectors of [mv_k] values, here functions on positions. *)
From Coq Require Import List Arith Lia Bool Reals.
Import ListNotations.
From Verif Require Import Base RSum Num Tensor Prob Layers Leaf Einet.
Local Open Scope nat_scope.

Section Mv.
Context {V : Type}.

(** multivariate_normal.py:17-55; [mv_zero]: nan_placeholder. *)
Record mvleaf : Type := mkMv {
  mv_C : nat; mv_F : nat; mv_L : nat; mv_R : nat; mv_k : nat;
  mv_logp : list nat -> (nat -> V) -> num; mv_mean : list nat -> nat -> V; mv_zero : V }.
Definition mv_pad (m : mvleaf) : nat := mv_F m mod mv_k m.                           (* :43 *)
Definition mv_out (m : mvleaf) : nat := ceil_div (mv_F m) (mv_k m).                  (* :44 *)
Definition mv_dists (m : mvleaf) : nat := mv_C m * mv_out m * mv_L m * mv_R m.       (* :47-48 *)
(** :65-68: the parameters are viewed as rows; row [d] holds those of one position. *)
Definition mv_rows (m : mvleaf) : res (tensor (list nat)) :=
  view [mv_dists m] (mkT [mv_C m; mv_out m; mv_L m; mv_R m] (fun idx => idx)).

(** :112-138 log_prob on x of shape [N, C, F, 1, 1].  Reflection padding of the last two of five dimensions is not
    implemented in torch, and those dimensions have size one. *)
Definition mv_log_prob (m : mvleaf) (x : tensor V) : res (tensor num) :=
  let N := size x 0 in
  _ <- guard (mv_pad m =? 0) NotImplementedErr ;;
  x <- view [N; mv_C m; mv_out m; 1; 1; mv_k m] x ;;
  x <- repeat_t [1; 1; 1; mv_L m; mv_R m; 1] x ;;
  x <- view [N; mv_dists m; mv_k m] x ;;
  rows <- mv_rows m ;;
  let y := mkT [N; mv_dists m] (fun idx => match idx with
             | [n; d] => mv_logp m (get rows [d]) (fun j => get x [n; d; j]) | _ => NaN end) in
  view [size y 0; mv_C m; mv_out m; mv_L m; mv_R m] y.

(** abstract_leaf.py:236-264; the list or tensor [s] of scopes. *)
Definition mv_marginalize (m : mvleaf) (y : tensor num) (ms : option (bool * list nat)) : res (tensor num) :=
  match ms with
  | None => marginalize_input y None
  | Some (is_tensor, s) =>
      if 1 <? mv_k m then
        _ <- guard is_tensor AttributeErr ;;                                         (* list.div *)
        marginalize_input y (Some (map (fun f => f / mv_k m) s))
      else marginalize_input y (Some s)
  end.
(** abstract_leaf.py:266-293 *)
Definition mv_forward (m : mvleaf) (x : tensor (option V)) (ms : option (bool * list nat)) : res (tensor num) :=
  let has_nan := existsb (fun idx => is_nan (get x idx)) (all_idx (shape x)) in
  let x0 := tmap (fun o => match o with Some v => v | None => mv_zero m end) x in
  y <- mv_log_prob m (if dim x0 =? 3 then unsq_end 2 x0 else x0) ;;
  y <- (if has_nan then
          _ <- guard (eqb_list (firstn (dim x) (shape y)) (shape x)) IndexErr ;;
          Ok (mkT (shape y) (fun idx => if is_nan (get x (firstn (dim x) idx)) then NaN else get y idx))
        else Ok y) ;;
  mv_marginalize m y ms.

(** :140-161 sample and :163-188 mpe, before dist_sample's selection.  [s]: one vector per row and distribution. *)
Definition mv_arrange (m : mvleaf) (N : nat) (s : tensor V) : res (tensor V) :=
  s <- view [N; mv_C m; mv_out m; mv_L m; mv_R m; mv_k m] s ;;
  view [N; mv_C m; mv_F m; mv_L m; mv_R m] (permute [0; 1; 2; 5; 3; 4] s).
Definition mv_draw (m : mvleaf) (N : nat) (mpe : bool) : M (nat -> V) (tensor V) :=
  rows <~ lift (mv_rows m) ;;
  if mpe then
    let mean := mkT [mv_dists m; mv_k m] (fun idx => match idx with [d; j] => mv_mean m (get rows [d]) j | _ => mv_zero m end) in
    s <~ lift (repeat_t [N; 1; 1; 1; 1] (unsqueeze 0 (unsqueeze 0 (unsqueeze 0 mean)))) ;;
    s <~ lift (mv_arrange m N s) ;;
    Ret (unsqueeze 6 (unsqueeze 1 s))
  else
    s <~ draw_tensor (fun _ => mv_zero m) [N; mv_dists m] (fun idx => LeafD (get rows (skipn 1 idx)) (fun v => Ret v)) ;;
    s <~ lift (mv_arrange m N (mkT [N; mv_dists m; mv_k m] (fun idx => match idx with [n; d; j] => get s [n; d] j | _ => mv_zero m end))) ;;
    Ret (unsqueeze 6 (unsqueeze 1 s)).
(** abstract_leaf.py:95-165, 300-312 *)
Definition mv_sample (m : mvleaf) (N : nat) (mpe : bool) (p : option (tensor nat)) (rep : tensor nat) : M (nat -> V) (tensor V) :=
  s <~ mv_draw m N mpe ;;
  lift (leaf_select s p rep).

(** factorized_leaf.py:69-98 and :256-294: the layers above sum over the groups. *)
Definition shell (m : mvleaf) : bleaf (nat -> V) :=
  mkLf (mv_C m) (mv_out m) (mv_L m) (mv_R m) (mv_logp m) (fun _ => true) (fun _ => mv_zero m) (Some (mv_mean m)) true.
(** factorized_leaf.py:100-158 with cardinality; the scopes are over the groups. *)
Definition mv_fact_index (m : mvleaf) (Fo : nat) (sc : tensor nat) (N : nat) (out rep : tensor nat) (s : tensor V) : res (tensor V) :=
  _ <- assert (eqb_list (shape s) [N; mv_C m; mv_F m; mv_L m]) ;;
  sel <- index_dim 2 rep sc ;;
  let sel := permute [2; 0; 1] sel in
  let g := mkT (removelast (shape sel)) (fun idx => list_sum (map (fun o => get sel (idx ++ [o]) * o) (seq 0 Fo))) in
  i <- gather 1 g out ;;
  i <- view_infer [N; 1] [1] i ;;
  i <- expand [size i 0; mv_C m; size i 2; size i 3] i ;;
  i <- repeat_t [1; 1; mv_k m; 1] i ;;
  s <- gather 3 i s ;;
  Ok (squeeze 3 s).
Definition mv_fact_sample (m : mvleaf) (Fo : nat) (sc : tensor nat) (c : sctx) (mpe : bool) : M (nat -> V) (tensor V) :=
  s <~ mv_sample m (c_n c) mpe None (c_rep c) ;;
  lift (mv_fact_index m Fo sc (c_n c) (c_out c) (c_rep c) s).
(** factorized_leaf.py:296-365; num_features of the layer is the number of groups. *)
Definition mv_simple_index (m : mvleaf) (Fo : nat) (pinv : tensor nat) (N : nat) (out : tensor nat) (s : tensor V) : res (tensor V) :=
  _ <- assert (eqb_list (shape s) [N; mv_C m; mv_F m; mv_L m]) ;;
  let G := mv_out m in
  let o := unsqueeze 1 (unsqueeze 1 out) in
  o <- expand [size o 0; mv_C m; simple_card G Fo; size o 3] o ;;
  o <- view [size o 0; mv_C m; G + simple_dummy G Fo] o ;;
  o <- index_dim 2 pinv o ;;
  let o := if 0 <? simple_dummy G Fo then take 2 (size o 2 - simple_dummy G Fo) o else o in
  let o := unsqueeze 3 o in
  s <- gather 3 o s ;;
  Ok (squeeze 3 s).
Definition mv_simple_sample (m : mvleaf) (Fo : nat) (pinv : tensor nat) (c : sctx) (mpe : bool) : M (nat -> V) (tensor V) :=
  s <~ mv_sample m (c_n c) mpe None (c_rep c) ;;
  lift (mv_simple_index m Fo pinv (c_n c) (c_out c) s).

(** einet.py:121-205 for a network over such leaves; [E] gives the layers above, [F] is config.num_features. *)
Definition mv_einet_forward (E : einet (nat -> V)) (m : mvleaf) (x : tensor (option V)) (ms : option (bool * list nat)) : res (tensor num * caches) :=
  let x := if dim x =? 2 then unsqueeze 1 x else x in
  x <- (if dim x =? 4 then view_infer [size x 0; mv_C m] [] x else Ok x) ;;
  _ <- assert (dim x =? 3) ;;
  _ <- assert (size x 1 =? mv_C m) ;;
  _ <- assert (size x 2 =? mv_F m) ;;
  y <- mv_forward m x ms ;;
  y <- match e_leaf E with
       | LFact lf Fo sc => fact_forward lf Fo sc y
       | LSimple lf Fo perm _ => simple_forward lf Fo (vec perm) y
       | LBase _ => Ok y
       end ;;
  y <- (match e_leaf E with
        | LBase _ => let y := tsum 1 y in _ <- assert (eqb_list (shape y) [size y 0; mv_F m; mv_L m; mv_R m]) ;; Ok y
        | _ => merge_channels E y
        end) ;;
  forward_upper E y.
End Mv.
Arguments mvleaf : clear implicits.
