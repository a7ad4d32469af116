(** The Einet: configuration, construction, forward pass, posterior and sampling.
    Source: simple_einet/einet.py (and sampling_utils.py:14-70 for the forward pass on evidence).

    Evaluation mode (no dropout mask); univariate leaves; non-differentiable sampling without
    [return_leaf_params] (these are in other files). *)
From Coq Require Import List Arith Lia Bool ZArith Reals.
Import ListNotations.
From Verif Require Import Base RSum Num Tensor Prob Layers Leaf TypeChecks.

(** * Layers of the network *)
Inductive layer : Type :=
| LEin (L : slay) | LLin (L : slay) | LLin2 (L : slay) | LSum (L : slay)
| LRoot (D : nat).

Definition layer_forward (l : layer) (x : tensor num) : res (tensor num * option cache) :=
  match l with
  | LEin L => '(y, c) <- einsum_forward L x ;; Ok (y, Some c)
  | LLin L => '(y, c) <- linsum_forward L None x ;; Ok (y, Some c)
  | LLin2 L => '(y, c) <- linsum2_forward L None x ;; Ok (y, Some c)
  | LSum L => '(y, c) <- sum_forward L None x ;; Ok (y, Some c)
  | LRoot D => y <- rootprod_forward D x ;; Ok (y, None)
  end.
Definition layer_sample {V} (l : layer) (ca : option cache) (c : sctx) : M V sctx :=
  match l with
  | LEin L => einsum_sample L ca c
  | LLin L => linsum_sample L ca c
  | LLin2 L => linsum2_sample L ca c
  | LSum L => sum_sample L ca c
  | LRoot D => rootprod_sample D c
  end.

Inductive leaf_layer (V : Type) : Type :=
| LFact (lf : bleaf V) (Fo : nat) (scopes : tensor nat)
| LSimple (lf : bleaf V) (Fo : nat) (perm pinv : list nat)
| LBase (lf : bleaf V).
Arguments LFact {V}. Arguments LSimple {V}. Arguments LBase {V}.

(** A constructed Einet.  [e_layers] is [self.layers], bottom to top; [e_perm] holds the buffers
    [permutation] and [permutation_inv] of a bottom-up network, row by row; [e_mixing] and [e_root]
    are absent attributes when [None]. *)
Record einet (V : Type) : Type := mkE {
  e_F : nat; e_C : nat; e_L : nat; e_R : nat; e_K : nat;
  e_leaf : leaf_layer V;
  e_perm : option ((nat -> list nat) * (nat -> list nat));
  e_layers : list layer;
  e_mixing : option slay;
  e_root : option slay }.
Arguments mkE {V}. Arguments e_F {V}. Arguments e_C {V}. Arguments e_L {V}. Arguments e_R {V}.
Arguments e_K {V}. Arguments e_leaf {V}. Arguments e_perm {V}. Arguments e_layers {V}.
Arguments e_mixing {V}. Arguments e_root {V}.

Section Einet.
Context {V : Type}.

(** The (R, F) buffer with the given rows. *)
Definition buffer (R F : nat) (rows : nat -> list nat) : tensor nat :=
  mkT [R; F] (fun idx => nth (nth 1 idx 0) (rows (hd 0 idx)) 0).

(** * Forward pass, einet.py:121-219 *)

(** :134-146 *)
Definition prepare (E : einet V) (x : tensor (option V)) : res (tensor (option V)) :=
  let x := if dim x =? 2 then unsqueeze 1 x else x in
  x <- (if dim x =? 4 then view_infer [size x 0; e_C E] [] x else Ok x) ;;
  _ <- assert (dim x =? 3) ;;
  _ <- assert (size x 1 =? e_C E) ;;
  _ <- assert (size x 2 =? e_F E) ;;
  Ok x.

Definition leaf_of (l : leaf_layer V) : bleaf V :=
  match l with LFact lf _ _ | LSimple lf _ _ _ | LBase lf => lf end.
(** self.leaf(x, marginalized_scopes) *)
Definition leaf_forward (l : leaf_layer V) (x : tensor (option V)) (ms : option (list nat)) : res (tensor num) :=
  y <- base_forward (leaf_of l) x ms ;;
  match l with
  | LFact lf Fo sc => fact_forward lf Fo sc y
  | LSimple lf Fo perm _ => simple_forward lf Fo (vec perm) y
  | LBase _ => Ok y
  end.
(** :160-175 *)
Definition merge_channels (E : einet V) (x : tensor num) : res (tensor num) :=
  match e_leaf E with
  | LBase _ =>
      let x := tsum 1 x in
      _ <- assert (eqb_list (shape x) [size x 0; e_F E; e_L E; e_R E]) ;; Ok x
  | LFact _ Fo _ | LSimple _ Fo _ _ =>
      _ <- assert (eqb_list (shape x) [size x 0; Fo; e_L E; e_R E]) ;; Ok x
  end.
(** :177-180, one repetition: x[:, :, :, i] = x[:, permutation[i], :, i] *)
Definition permute_rep (perm : tensor nat) (i : nat) (x : tensor num) : res (tensor num) :=
  row <- select 0 i perm ;;
  xi <- select 3 i x ;;
  y <- index_dim 1 row xi ;;
  _ <- guard (eqb_list (shape y) (shape xi)) RuntimeErr ;;
  Ok (mkT (shape x) (fun idx => if nth 3 idx 0 =? i then get y (remove_nth 3 idx) else get x idx)).
Fixpoint permute_reps (perm : tensor nat) (R : nat) (x : tensor num) : res (tensor num) :=
  match R with
  | O => Ok x
  | S i => x' <- permute_reps perm i x ;; permute_rep perm i x'
  end.
(** :206-219 *)
Fixpoint forward_layers (ls : list layer) (x : tensor num) : res (tensor num * list (option cache)) :=
  match ls with
  | [] => Ok (x, [])
  | l :: ls' =>
      '(y, c) <- layer_forward l x ;;
      '(z, cs) <- forward_layers ls' y ;;
      Ok (z, c :: cs)
  end.
Definition attr {A} (o : option A) : res A := match o with Some a => Ok a | None => Err AttributeErr end.

(** The input caches that a forward pass fills: one per layer, and the mixing layer's. *)
Record caches : Type := mkCaches { ca_layers : list (option cache); ca_mixing : option cache }.
Definition no_caches (E : einet V) : caches := mkCaches (map (fun _ => None) (e_layers E)) None.

(** :177-204, everything after the leaf layer *)
Definition forward_upper (E : einet V) (x : tensor num) : res (tensor num * caches) :=
  x <- (match e_perm E with None => Ok x | Some (p, _) => permute_reps (buffer (e_R E) (e_F E) p) (e_R E) x end) ;;
  '(x, cs) <- forward_layers (e_layers E) x ;;
  '(batch, features, channels, _) <- size4 x ;;
  _ <- assert (features =? 1) ;;
  _ <- assert (channels =? e_K E) ;;
  '(x, cm) <- (if 1 <? e_R E
               then m <- attr (e_mixing E) ;; '(y, c) <- mixing_forward m None x ;; Ok (y, Some c)
               else Ok (squeeze 3 x, None)) ;;
  let x := squeeze 1 x in
  _ <- assert (eqb_list (shape x) [batch; e_K E]) ;;
  Ok (x, mkCaches cs cm).
Definition forward_full (E : einet V) (x : tensor (option V)) (ms : option (list nat)) : res (tensor num * caches) :=
  x <- prepare E x ;;
  y <- leaf_forward (e_leaf E) x ms ;;
  y <- merge_channels E y ;;
  forward_upper E y.
Definition forward (E : einet V) (x : tensor (option V)) (ms : option (list nat)) : res (tensor num) :=
  '(y, _) <- forward_full E x ms ;; Ok y.

(** * Posterior, einet.py:703-720 and 221-236 *)
Definition posterior_of (ll : tensor num) (K : nat) : res (tensor num) :=
  let ll_y := nlog (Fin (1 / INR K)) in
  let ll_x_and_y := tmap (fun l => nadd l ll_y) ll in
  bsub ll_x_and_y (tlogsumexp_keep 1 ll_x_and_y).
Definition posterior (E : einet V) (x : tensor (option V)) : res (tensor num) :=
  _ <- assert (1 <? e_K E) ;;
  ll <- forward E x None ;;
  posterior_of ll (e_K E).

(** * Sampling, einet.py:533-697 *)
Inductive class_arg : Type := CNone | CInt (c : nat) | CList (cs : list nat).
Record sargs : Type := mkArgs {
  a_n : option nat;                         (* num_samples *)
  a_class : class_arg;                      (* class_index *)
  a_ev : option (tensor (option V));        (* evidence *)
  a_mpe : bool;                             (* is_mpe *)
  a_mpel : bool;                            (* mpe_at_leaves *)
  a_tsum : R;                               (* temperature_sums *)
  a_ms : option (list nat) }.               (* marginalized_scopes *)

Definition class_none (c : class_arg) : bool := match c with CNone => true | _ => false end.
Definition is_none {A} (o : option A) : bool := match o with None => true | Some _ => false end.
(** :579-582 *)
Definition check_args (E : einet V) (a : sargs) : res unit :=
  _ <- assert (class_none (a_class a) || is_none (a_ev a)) ;;
  _ <- assert (is_none (a_n a) || is_none (a_ev a)) ;;
  if e_K E =? 1 then assert (class_none (a_class a)) else Ok tt.
(** :584-589 *)
Definition num_samples (a : sargs) : nat :=
  match a_ev a, a_n a with
  | Some e, _ => size e 0
  | None, Some n => n
  | None, None => 1
  end.
(** :597-613 *)
Definition init_ctx (a : sargs) : sctx :=
  let n := num_samples a in mkCtx n (full [n; 1] 0) (full [n] 0) (a_mpe a) (a_tsum a).
(** sampling_utils.py:47-56: a forward pass on the evidence fills the caches. *)
Definition ev_caches (E : einet V) (a : sargs) : res caches :=
  match a_ev a with
  | None => Ok (no_caches E)
  | Some e => '(_, cs) <- forward_full E e (a_ms a) ;; Ok cs
  end.
(** :614-645.  Returns the number of rows (the local [num_samples]) and the context.  The class
    sampling root is not part of the forward pass, so its input cache is always empty. *)
Definition class_step (E : einet V) (a : sargs) (c : sctx) : M V (nat * sctx) :=
  let n := num_samples a in
  if 1 <? e_K E then
    match a_class a with
    | CList cs => Ret (length cs, set_out c (mkT [length cs; 1] (fun idx => nth (hd 0 idx) cs 0)))
    | CInt y => Ret (n, set_out c (full [n; 1] y))
    | CNone => root <~ lift (attr (e_root E)) ;; c' <~ sum_sample root None c ;; Ret (n, c')
    end
  else Ret (n, c).
(** :647-657 *)
Definition mixing_step (E : einet V) (cs : caches) (n : nat) (c : sctx) : M V sctx :=
  if 1 <? e_R E then
    m <~ lift (attr (e_mixing E)) ;;
    c' <~ mixing_sample m (ca_mixing cs) c ;;
    rep <~ lift (view [n] (c_out c')) ;;
    Ret (mkCtx (c_n c') (c_out c) rep (c_mpe c') (c_tsum c'))
  else Ret c.
(** :659-661, top to bottom *)
Fixpoint sample_layers (ls : list (layer * option cache)) (c : sctx) : M V sctx :=
  match ls with
  | [] => Ret c
  | (l, ca) :: ls' => c' <~ sample_layers ls' c ;; layer_sample l ca c'
  end.
(** :663-675 *)
Definition unpermute (E : einet V) (c : sctx) : res sctx :=
  match e_perm E with
  | None => Ok c
  | Some (_, pinv) =>
      rows <- index_dim 0 (c_rep c) (buffer (e_R E) (e_F E) pinv) ;;
      o <- gather 1 rows (c_out c) ;;
      Ok (set_out c o)
  end.
(** :678 *)
Definition leaf_sample (l : leaf_layer V) (c : sctx) (mode : bool) : M V (tensor V) :=
  match l with
  | LFact lf Fo sc => fact_sample lf Fo sc c mode
  | LSimple lf Fo _ pinv => simple_sample lf Fo (vec pinv) c mode
  | LBase lf => base_sample lf (c_n c) mode (Some (c_out c)) (c_rep c)
  end.
(** :684-695 *)
Definition merge_evidence (ev : tensor (option V)) (ms : option (list nat)) (s : tensor V) : res (tensor (option V)) :=
  e <- view (shape s) ev ;;
  out <- match ms with
         | None => Ok (mkT (shape e) (fun idx => match get e idx with None => Some (get s idx) | Some v => Some v end))
         | Some m =>
             _ <- guard (forallb (fun f => f <? size e 2) m) IndexErr ;;
             Ok (mkT (shape e) (fun idx => if existsb (Nat.eqb (nth 2 idx 0)) m then Some (get s idx) else get e idx))
         end ;;
  view (shape ev) out.

(** The walk from the root down to the indices of the leaf components. *)
Definition sample_ctx (E : einet V) (a : sargs) : M V sctx :=
  _ <~ lift (check_args E a) ;;
  cs <~ lift (ev_caches E a) ;;
  nc <~ class_step E a (init_ctx a) ;;
  c <~ mixing_step E cs (fst nc) (snd nc) ;;
  c <~ sample_layers (combine (e_layers E) (ca_layers cs)) c ;;
  lift (unpermute E c).
Definition sample (E : einet V) (a : sargs) : M V (tensor (option V)) :=
  c <~ sample_ctx E a ;;
  s <~ leaf_sample (e_leaf E) c (a_mpe a || a_mpel a) ;;
  match a_ev a with
  | None => Ret (tmap Some s)
  | Some e => lift (merge_evidence e (a_ms a) s)
  end.
(** :515-531 *)
Definition mpe (E : einet V) (ev : option (tensor (option V))) (ms : option (list nat)) : M V (tensor (option V)) :=
  sample E (mkArgs None CNone ev true false 1 ms).
End Einet.
