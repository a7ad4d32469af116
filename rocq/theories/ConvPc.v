(** Convolutional probabilistic circuits on images.  Source: simple_einet/conv_pc.py.

    Sizes, kernel sizes and channel counts are natural numbers.  [num_classes], [num_channels] of the
    configuration, [class_index], [marginalized_scopes] and [tau] are read by nothing in this file and
    are left out.  SumConv (:143-297) is used by no other class and is not modelled.  With an unknown order,
    enabling the caches (:486-487) already raises AttributeError, so only some caches are on; as every forward
    pass then raises as well, no cache is ever filled and the difference cannot be seen. *)
From Coq Require Import List Arith Lia Bool Reals.
Import ListNotations.
From Verif Require Import Base RSum Num Tensor Prob Layers Leaf Einet Diff.
Local Open Scope nat_scope.

(** * Layers *)
(** :300-311 SumLayer *)
Record csum : Type := mkCS { cs_in : nat; cs_out : nat; cs_h : nat; cs_w : nat; cs_logits : tensor num }.
(** :448-450 the orders that have a meaning, and any other string *)
Inductive corder : Type := OSumProd | OProdSum | OOther.
(** The modules that may stand in [ConvPc.layers].  A SumProdLayer with an unknown order has neither a sum
    layer nor a product layer. *)
Inductive clayer : Type :=
| CSum (s : csum)
| CProd (kh kw : nat)
| CSumProd (o : corder) (s : csum) (kh kw : nat).

(** :313-328 SumLayer.forward *)
Definition csum_forward (s : csum) (x : tensor num) : res (tensor num) :=
  let log_weights := unsqueeze 0 (tlog_softmax 1 (cs_logits s)) in
  y <- badd (unsqueeze 1 x) log_weights ;;
  Ok (tlogsumexp 2 y).

(** F.conv2d(x, ones(C, 1, kh, kw), groups=C, stride=(kh, kw), padding=0): sums of disjoint patches. *)
Definition conv_ones (kh kw : nat) (N C H W : nat) (x : tensor num) : tensor num :=
  mkT [N; C; (H - kh) / kh + 1; (W - kw) / kw + 1] (fun idx => match idx with
    | [n; c; i; j] => nsum kh (fun a => nsum kw (fun b => nmul (get x [n; c; i * kh + a; j * kw + b]) (Fin 1%R)))
    | _ => NaN end).
(** :394-410 ProdConv.forward; [H % 0] raises ZeroDivisionError. *)
Definition prod_forward (kh kw : nat) (x : tensor num) : res (tensor num) :=
  '(N, C, H, W) <- size4 x ;;
  _ <- guard (negb (kh =? 0)) ZeroDivErr ;;
  _ <- assert (H mod kh =? 0) ;;
  _ <- guard (negb (kw =? 0)) ZeroDivErr ;;
  _ <- assert (W mod kw =? 0) ;;
  _ <- guard ((kh <=? H) && (kw <=? W)) RuntimeErr ;;     (* the kernel must fit *)
  Ok (conv_ones kh kw N C H W x).

(** :466-475 SumProdLayer.forward.  The first component is the input that the sum layer sees and stores when
    its cache is enabled (:315-316), if it was called. *)
Definition clayer_forward (l : clayer) (x : tensor num) : option (tensor num) * res (tensor num) :=
  match l with
  | CSum s => (Some x, csum_forward s x)
  | CProd kh kw => (None, prod_forward kh kw x)
  | CSumProd OSumProd s kh kw => (Some x, y <- csum_forward s x ;; prod_forward kh kw y)
  | CSumProd OProdSum s kh kw =>
      match prod_forward kh kw x with
      | Ok y => (Some y, csum_forward s y)
      | Err e => (None, Err e)
      end
  | CSumProd OOther _ _ _ => (None, Err ValueErr)
  end.

(** :653-654.  The caches keep what was stored before an exception. *)
Fixpoint clayers_forward (ls : list clayer) (x : tensor num) : list (option (tensor num)) * res (tensor num) :=
  match ls with
  | [] => ([], Ok x)
  | l :: ls' =>
      let '(c, y) := clayer_forward l x in
      match y with
      | Ok y => let '(cs, z) := clayers_forward ls' y in (c :: cs, z)
      | Err e => (c :: map (fun _ => None) ls', Err e)
      end
  end.

(** * Sampling the layers *)
(** sampling_utils.py:192-203, after the choice of [index] *)
Definition straight_through (lw : tensor num) (index : tensor nat) (d : nat) : res (tensor num) :=
  let y := tmap nexp lw in
  let y_hard := mkT (shape lw) (fun idx => Fin (if nth d idx 0 =? get index (remove_nth d idx) then 1%R else 0%R)) in
  s <- bsub y_hard y ;;
  badd s y.
Section Sampling.
Context {V : Type}.
(** The arg max of log weights plus independent Gumbel noise along [d] is a categorical draw with these
    weights (the Gumbel-max trick; C56 bounds the error of ignoring the 1e-20 in the noise). *)
Definition cat_dim (d : nat) (lw : tensor num) : M V (tensor nat) :=
  draw_tensor 0 (remove_nth d (shape lw)) (fun idx =>
    Cat (map (fun k => get lw (insert_nth d k idx)) (seq 0 (size lw d))) (fun i => Ret i)).
(** sampling_utils.py:166-245 sample_categorical_differentiably(dim=d, is_mpe, log_weights) *)
Definition simple_draw (mpe : bool) (lw : tensor num) (d : nat) : M V (tensor num) :=
  index <~ (if mpe then Ret (targmax d (tsoftmax d lw)) else cat_dim d lw) ;;
  lift (straight_through lw index d).

(** :352-363 SumLayer._select_weights, [p] is ctx.indices_out of shape (N, out_channels, H, W) *)
Definition csum_select (s : csum) (T : R) (p : tensor num) : res (tensor num) :=
  lg <- index_one_hot 1 (unsqueeze 0 (cs_logits s)) (unsqueeze 2 p) ;;
  Ok (logits_to_log_weights lg 1 T).
(** :371-378 _condition_weights_on_evidence *)
Definition csum_condition (lls lw : tensor num) : res (tensor num) :=
  po <- badd lw lls ;;
  bsub po (tlogsumexp_keep 1 po).
(** :338-350 SumLayer.sample; [ca] is the cached input when the cache is enabled and filled. *)
Definition csum_sample (s : csum) (T : R) (mpe : bool) (ca : option (tensor num)) (p : tensor num) : M V (tensor num) :=
  lw <~ lift (csum_select s T p) ;;
  lw <~ lift (match ca with None => Ok lw | Some x => csum_condition x lw end) ;;
  simple_draw mpe lw 1.
(** :420-431 ProdConv.sample *)
Definition prod_sample (kh kw : nat) (p : tensor num) : tensor num :=
  repeat_interleave 3 kw (repeat_interleave 2 kh p).
(** :477-484 SumProdLayer.sample; an unknown order changes nothing. *)
Definition clayer_sample (T : R) (mpe : bool) (l : clayer) (ca : option (tensor num)) (p : tensor num) : M V (tensor num) :=
  match l with
  | CSum s => csum_sample s T mpe ca p
  | CProd kh kw => Ret (prod_sample kh kw p)
  | CSumProd OSumProd s kh kw => csum_sample s T mpe ca (prod_sample kh kw p)
  | CSumProd OProdSum s kh kw => o <~ csum_sample s T mpe ca p ;; Ret (prod_sample kh kw o)
  | CSumProd OOther _ _ _ => Ret p
  end.
(** :704-708, from the root down *)
Fixpoint clayers_sample (T : R) (mpe : bool) (ls : list (clayer * option (tensor num))) (p : tensor num) : M V (tensor num) :=
  match ls with
  | [] => Ret p
  | (l, ca) :: ls' => o <~ clayers_sample T mpe ls' p ;; clayer_sample T mpe l ca o
  end.
End Sampling.

(** * The model *)
Record convpc (V : Type) : Type := mkCP {
  cp_C : nat; cp_H : nat; cp_W : nat;     (* data_shape *)
  cp_L : nat;                             (* config.channels[0] *)
  cp_leaf : bleaf V;
  cp_layers : list clayer }.
Arguments mkCP {V}. Arguments cp_C {V}. Arguments cp_H {V}. Arguments cp_W {V}. Arguments cp_L {V}.
Arguments cp_leaf {V}. Arguments cp_layers {V}.

(** ** Construction *)
Inductive cstruct : Type := CTopDown | CBottomUp | COther.
(** :502-512 *)
Record cconfig : Type := mkCC { cc_channels : list nat; cc_kernel : nat; cc_struct : cstruct; cc_order : corder }.
(** The leaf class called with (num_features, num_channels, num_leaves, num_repetitions) and the logits of
    the sum layers in the order of their creation, given the shape of the parameter. *)
Record coracle (V : Type) : Type := mkCO {
  co_leaf : nat -> nat -> nat -> nat -> res (bleaf V);
  co_logits : nat -> list nat -> tensor num }.
Arguments mkCO {V}. Arguments co_leaf {V}. Arguments co_logits {V}.

Section Build.
Context {V : Type}.
Variable o : coracle V.
(** :301-307 *)
Definition new_csum (i cin cout h w : nat) : csum := mkCS cin cout h w (co_logits o i [cout; cin; h; w]).
(** :440-464; [height // kernel_size_h] divides by the kernel sizes in every branch. *)
Definition new_sumprod (i cin cout h w kh kw : nat) (ord : corder) : res clayer :=
  _ <- guard (negb (kh =? 0) && negb (kw =? 0)) ZeroDivErr ;;
  match ord with
  | OSumProd => Ok (CSumProd OSumProd (new_csum i cin cout h w) kh kw)
  | OProdSum => Ok (CSumProd OProdSum (new_csum i cin cout (h / kh) (w / kw)) kh kw)
  | OOther => Ok (CSumProd OOther (new_csum i cin cout h w) kh kw)
  end.
(** :558-587 *)
Fixpoint build_bottom (ord : corder) (k i : nat) (chs : list nat) (h w : nat) : res (list clayer) :=
  match chs with
  | [] => Err IndexErr
  | [c] => l <- new_sumprod i c 1 h w h w OProdSum ;; Ok [l]
  | c :: (c' :: _) as rest =>
      l <- new_sumprod i c c' h w k k ord ;;
      ls <- build_bottom ord k (S i) rest (h / k) (w / k) ;;
      Ok (l :: ls)
  end.
(** :598-610, [i] counts down; [acc] holds the layers built so far, lowest first. *)
Fixpoint build_top (ord : corder) (chs : list nat) (n i : nat) (h w : nat) (acc : list clayer) : res (list clayer * nat * nat) :=
  match i with
  | O => Ok (acc, h, w)
  | S i' =>
      l <- new_sumprod (n - i') (nth i' chs 0) (nth (S i') chs 0) (h * 2) (w * 2) 2 2 ord ;;
      build_top ord chs n i' (h * 2) (w * 2) (l :: acc)
  end.
(** :536-624 *)
Definition build_convpc (g : cconfig) (C H W : nat) : res (convpc V) :=
  match cc_channels g with
  | [] => Err IndexErr
  | c0 :: _ =>
      lf <- co_leaf o (W * H) C c0 1 ;;
      ls <- match cc_struct g with
            | CBottomUp => build_bottom (cc_order g) (cc_kernel g) 0 (cc_channels g) H W
            | CTopDown =>
                let n := length (cc_channels g) in
                let top := CSum (new_csum 0 (last (cc_channels g) 0) 1 1 1) in
                '(acc, h, w) <- build_top (cc_order g) (c0 :: cc_channels g) n n 1 1 [top] ;;
                Ok (CProd (H / h) (W / w) :: acc)
            | COther => Err ValueErr
            end ;;
      Ok (mkCP C H W c0 lf ls)
  end.
End Build.

Section Model.
Context {V : Type}.
Variable P : convpc V.
Let C := cp_C P. Let H := cp_H P. Let W := cp_W P.

(** :631-647.  [permute] with four axes needs a tensor of rank four. *)
Definition leaf_images (x : tensor (option V)) : res (tensor num) :=
  x <- view [size x 0; C; H * W] x ;;
  y <- base_forward (cp_leaf P) x None ;;
  y <- view [size y 0; C; H; W; cp_L P] y ;;
  let y := tsum 1 y in
  let y := squeeze (dim y - 1) y in
  _ <- guard (dim y =? 4) RuntimeErr ;;
  Ok (permute [0; 3; 1; 2] y).

(** The caches of all sum layers: whether they are enabled, and their contents by layer. *)
Record cstate : Type := mkSt { st_on : bool; st_in : list (option (tensor num)) }.
Definition fresh_state : cstate := mkSt false (map (fun _ => None) (cp_layers P)).
(** New contents: a layer that ran overwrites its entry. *)
Definition store (st : cstate) (cs : list (option (tensor num))) : cstate :=
  if st_on st then mkSt true (map (fun p => match fst p with Some x => Some x | None => snd p end) (combine cs (st_in st))) else st.
(** :649-656 *)
Definition conv_forward (st : cstate) (x : tensor (option V)) : cstate * res (tensor num) :=
  match leaf_images x with
  | Err e => (st, Err e)
  | Ok y =>
      let '(cs, z) := clayers_forward (cp_layers P) y in
      (store st cs, z <- z ;; view [size z 0] z)
  end.

(** :658-670 arguments that are read *)
Record cargs : Type := mkCA {
  ca_num : option nat; ca_ev : option (tensor (option V)); ca_mpe : bool; ca_mpel : bool; ca_params : bool; ca_tsum : R }.
(** What a layer conditions on: its cache if enabled and filled (:343). *)
Definition live (st : cstate) : list (option (tensor num)) :=
  if st_on st then st_in st else map (fun _ => None) (cp_layers P).
Variable val : V -> R.
(** :688-735 with evidence=None *)
Definition conv_free (st : cstate) (a : cargs) (n : nat) : M V (tensor num) :=
  p <~ clayers_sample (ca_tsum a) (ca_mpe a) (combine (cp_layers P) (live st)) (full [n; 1; 1; 1] (Fin 1%R)) ;;
  _ <~ lift (guard (lf_ctx (cp_leaf P)) TypeErr) ;;
  _ <~ lift (guard (negb (ca_params a)) ValueErr) ;;       (* :715 unpacks five sizes into four names *)
  s <~ leaf_mode_or_draw (cp_leaf P) n (ca_mpe a || ca_mpel a) ;;
  lift (
    s <- dleaf_select (tmap (fun v => Fin (val v)) s) None (full [n; 1] (Fin 1%R)) ;;
    '(N, _, _, li) <- size4 s ;;
    s <- view [N; C; H; W; li] s ;;
    index_one_hot 1 (permute [0; 4; 1; 2; 3] s) (unsqueeze 2 p)).
(** :658-735.  With evidence, [sampling_context] (:119-126) enables and clears all caches and then looks up
    [log_likelihood], which no class defines: nn.Module.__getattr__ raises AttributeError, and the code that
    disables the caches (:131-135) is not reached. *)
Definition conv_sample (st : cstate) (a : cargs) : cstate * M V (tensor num) :=
  match ca_num a, ca_ev a with
  | None, None => (st, Fail ValueErr)
  | _, Some _ => (mkSt true (map (fun _ => None) (cp_layers P)), Fail AttributeErr)
  | Some n, None => (st, conv_free st a n)
  end.
End Model.
Arguments mkCA {V}. Arguments ca_num {V}. Arguments ca_ev {V}. Arguments ca_mpe {V}. Arguments ca_mpel {V}.
Arguments ca_params {V}. Arguments ca_tsum {V}.
