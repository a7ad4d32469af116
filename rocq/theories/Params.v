(** Sampling with return_leaf_params=True: instead of samples, the parameters of the selected leaf components.
    Sources: einet.py:678-682, factorized_leaf.py:100-127, 160-202, 296-323, 369-413, abstract_leaf.py:95-165.

    [params] is what [get_params()] of the leaf class returns: a tensor of shape (1, C, F, L, R, P), one vector of P
    numbers per component, or an exception (bernoulli.py and piecewise_linear.py have none). *)
From Coq Require Import List Arith Lia Bool Reals.
Import ListNotations.
From Verif Require Import Base RSum Num Tensor Prob Layers Leaf Einet Diff.
Local Open Scope nat_scope.

Section Params.
Context {V : Type}.

(** factorized_leaf.py:160-202, index branch :184-200 *)
Definition fact_params (lf : bleaf V) (Fo : nat) (sc : tensor nat) (N : nat) (out rep : tensor nat) (params : tensor num) : res (tensor num) :=
  let P := last (shape params) 0 in
  r <- view_infer [] [1; 1; 1; 1; 1] rep ;;
  r <- expand [size r 0; lf_C lf; lf_F lf; lf_L lf; size r 4; P] r ;;
  params <- expand [N; size params 1; size params 2; size params 3; size params 4; size params 5] params ;;
  params <- gather 4 r params ;;
  let params := squeeze 4 params in
  sel <- index_dim 2 rep sc ;;
  let sel := permute [2; 0; 1] sel in
  let g := mkT (removelast (shape sel)) (fun idx => list_sum (map (fun o => get sel (idx ++ [o]) * o) (seq 0 Fo))) in
  i <- gather 1 g out ;;
  i <- view_infer [N; 1] [1; 1] i ;;
  i <- expand [size i 0; lf_C lf; size i 2; size i 3; P] i ;;
  i <- repeat_t [1; 1; 1; 1; 1] i ;;
  params <- gather 3 i params ;;
  let params := squeeze 3 params in
  _ <- assert (eqb_list (shape params) [N; lf_C lf; lf_F lf; P]) ;;
  Ok params.

(** factorized_leaf.py:369-413, index branch :393-411 *)
Definition simple_params (lf : bleaf V) (Fo : nat) (pinv : tensor nat) (N : nat) (out : tensor nat) (params : tensor num) : res (tensor num) :=
  let P := last (shape params) 0 in
  let o := unsqueeze 1 (unsqueeze 1 out) in
  o <- expand [size o 0; lf_C lf; simple_card (lf_F lf) Fo; size o 3] o ;;
  o <- view [size o 0; lf_C lf; lf_F lf + simple_dummy (lf_F lf) Fo] o ;;
  o <- index_dim 2 pinv o ;;
  let o := if 0 <? simple_dummy (lf_F lf) Fo then take 2 (size o 2 - simple_dummy (lf_F lf) Fo) o else o in
  let o := unsqueeze 4 (unsqueeze 3 o) in
  o <- expand [size o 0; size o 1; size o 2; size o 3; P] o ;;
  let params := squeeze 4 params in
  params <- expand [N; size params 1; size params 2; size params 3; size params 4] params ;;
  params <- gather 3 o params ;;
  let params := squeeze 3 params in
  _ <- assert (eqb_list (shape params) [N; lf_C lf; lf_F lf; P]) ;;
  Ok params.

(** A base leaf sampled directly asks the torch distribution, not the leaf class, for its parameters
    (abstract_leaf.py:117-118).  The distributions that the leaf classes build for index sampling are
    torch.distributions.Normal, Binomial and Categorical, which have no method get_params; a PiecewiseLinearDist
    raises NotImplementedError; Bernoulli raises before that (bernoulli.py:29). *)
Definition base_params (lf : bleaf V) : res (tensor num) :=
  _ <- guard (lf_ctx lf) TypeErr ;; Err AttributeErr.

Definition leaf_params (l : leaf_layer V) (c : sctx) (gp : res (tensor num)) : res (tensor num) :=
  match l with
  | LFact lf Fo sc => params <- gp ;; fact_params lf Fo sc (c_n c) (c_out c) (c_rep c) params
  | LSimple lf Fo _ pinv => params <- gp ;; simple_params lf Fo (vec pinv) (c_n c) (c_out c) params
  | LBase lf => base_params lf
  end.
(** Einet.sample(..., return_leaf_params=True), einet.py:678-682; [gp]: get_params() of the leaf class. *)
Definition sample_params (E : einet V) (gp : res (tensor num)) (a : sargs) : M V (tensor num) :=
  c <~ sample_ctx E a ;; lift (leaf_params (e_leaf E) c gp).

(** * is_differentiable=True *)
(** factorized_leaf.py:165-183 *)
Definition dfact_params (lf : bleaf V) (sc : tensor nat) (N Rn : nat) (out rep params : tensor num) : res (tensor num) :=
  let P := last (shape params) 0 in
  r <- view [N; 1; 1; 1; Rn; 1] rep ;;
  params <- index_one_hot 4 params r ;;
  let scopes := unsqueeze 0 (tmap (fun k => Fin (INR k)) sc) in
  r_idx <- view_infer [N; 1; 1] [] rep ;;
  scopes <- index_one_hot 3 scopes r_idx ;;
  i <- index_one_hot 2 (unsqueeze 1 out) (unsqueeze 3 scopes) ;;
  i <- view [N; 1; lf_F lf; lf_L lf; 1] i ;;
  params <- index_one_hot 3 params i ;;
  _ <- assert (eqb_list (shape params) [N; lf_C lf; lf_F lf; P]) ;;
  Ok params.
(** factorized_leaf.py:374-392 *)
Definition dsimple_params (lf : bleaf V) (Fo : nat) (pinv : tensor nat) (N : nat) (out params : tensor num) : res (tensor num) :=
  let P := last (shape params) 0 in
  let o := unsqueeze 1 out in
  o <- expand [size o 0; simple_card (lf_F lf) Fo; size o 2; size o 3] o ;;
  o <- view [size o 0; lf_F lf + simple_dummy (lf_F lf) Fo; size o 3] o ;;
  o <- index_dim 1 pinv o ;;
  let o := if 0 <? simple_dummy (lf_F lf) Fo then take 1 (size o 1 - simple_dummy (lf_F lf) Fo) o else o in
  let o := unsqueeze 3 o in
  let params := squeeze 4 params in
  let o := unsqueeze 4 o in
  params <- index_one_hot 3 params o ;;
  _ <- assert (eqb_list (shape params) [N; lf_C lf; lf_F lf; P]) ;;
  Ok params.
End Params.
