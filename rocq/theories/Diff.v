(** Differentiable sampling (is_differentiable=True): routing by one-hot tensors instead of indices.
    Sources: sampling_utils.py:150-295, einet.py:533-697 and the differentiable branches of the
    layers and leaves.

    A one-hot tensor is an ordinary float tensor.  Their gradients are in Tangent.v.  The uniform draws of
    [sample_gumbel] are an explicit argument: [u i idx] is the entry [idx] of the i-th torch.rand
    tensor of one call to [sample]. *)
From Coq Require Import List Arith Lia Bool ZArith Reals.
Import ListNotations.
From Verif Require Import Base RSum Num Tensor Prob Layers Leaf Einet TypeChecks.
Local Open Scope nat_scope.

(** * sampling_utils.py *)
(** :248-295 index_one_hot; [d] is non-negative at every call site after translation. *)
Definition index_one_hot (d : nat) (t index : tensor num) : res (tensor num) :=
  _ <- assert (size t d =? size index d) ;;
  _ <- assert (dim t =? dim index) ;;
  p <- bmul t index ;;
  Ok (tsum d p).

Definition eps : R := (/ 10 ^ 20)%R.
(** :150-163 sample_gumbel, one entry *)
Definition gumbel (u : R) : num :=
  nneg (nlog (nadd (nneg (nlog (nadd (Fin u) (Fin eps)))) (Fin eps))).
(** :166-203 SIMPLE with log_weights.  [scatter_(dim, index, 1.0)] on zeros sets the position
    [index] along [dim].  y_hard - y.detach() + y is computed left to right. *)
Definition SIMPLE (u : list nat -> R) (mpe : bool) (lw : tensor num) (d : nat) : res (tensor num) :=
  let y := tmap nexp lw in
  base <- (if mpe then Ok lw else badd lw (mkT (shape lw) (fun idx => gumbel (u idx)))) ;;
  let y_perturbed := tsoftmax d base in
  let index := targmax d y_perturbed in
  let y_hard := mkT (shape lw) (fun idx => Fin (if nth d idx 0 =? get index (remove_nth d idx) then 1%R else 0%R)) in
  s <- bsub y_hard y ;;
  badd s y.
(** :206-245 sample_categorical_differentiably; method is always SIMPLE, [hard] and [tau] are unused. *)
Definition sample_categorical_diff := SIMPLE.

(** * Sampling context with one-hot indices *)
Record dctx : Type := mkD {
  d_n : nat;
  d_out : tensor num;        (* indices_out, (N, D, S) *)
  d_rep : tensor num;        (* indices_repetition, (N, R) *)
  d_mpe : bool;
  d_tsum : R }.
Definition dset_out (c : dctx) (o : tensor num) : dctx := mkD (d_n c) o (d_rep c) (d_mpe c) (d_tsum c).

(** abstract_layers.py:176-189 *)
Definition dcheck (fout so nr : nat) (c : dctx) : res unit :=
  _ <- assert (size (d_out c) 0 =? d_n c) ;;
  _ <- assert (size (d_out c) 1 =? fout) ;;
  _ <- assert (size (d_rep c) 0 =? d_n c) ;;
  _ <- assert (dim (d_out c) =? 3) ;;
  _ <- assert (size (d_out c) 2 =? so) ;;
  _ <- assert (dim (d_rep c) =? 2) ;;
  _ <- assert (size (d_rep c) 1 =? nr) ;;
  assert (size (d_rep c) 0 =? size (d_out c) 0).

(** * Layers *)
(** linsum.py:166-177, sum.py:95-105, linsum.py:360-368 *)
Definition dselect_disor (lg : tensor num) (n d si r : nat) (p rep : tensor num) : res (tensor num) :=
  g <- index_one_hot 3 (unsqueeze 0 lg) (unsqueeze 4 (unsqueeze 2 p)) ;;
  _ <- assert (eqb_list (shape g) [n; d; si; r]) ;;
  ri <- view [n; 1; 1; r] rep ;;
  g2 <- index_one_hot 3 g ri ;;
  _ <- assert (eqb_list (shape g2) [n; d; si]) ;;
  Ok g2.
Definition dlinsum_select (L : slay) (c : dctx) : res (tensor num) :=
  g <- dselect_disor (logits L) (d_n c) (linsum_features_out L) (sin L) (nrep L) (d_out c) (d_rep c) ;;
  Ok (logits_to_log_weights g 2 (d_tsum c)).
Definition dsum_select (L : slay) (c : dctx) : res (tensor num) :=
  g <- dselect_disor (logits L) (d_n c) (nf L) (sin L) (nrep L) (d_out c) (d_rep c) ;;
  Ok (logits_to_log_weights g 2 (d_tsum c)).
(** linsum.py:345-396; the parents are repeated along dim 1 before the selection *)
Definition dlinsum2_select (L : slay) (c : dctx) : res (tensor num) :=
  let p := repeat_interleave 1 2 (d_out c) in
  let p := if 0 <? linsum_pad L then take 1 (size p 1 - linsum_pad L) p else p in
  g <- dselect_disor (logits L) (d_n c) (nf L) (sin L) (nrep L) p (d_rep c) ;;
  Ok (logits_to_log_weights g 2 (d_tsum c)).
(** einsum.py:200-241 *)
Definition deinsum_select (L : slay) (c : dctx) : res (tensor num) :=
  g <- index_one_hot 2 (unsqueeze 0 (logits L)) (unsq_end 3 (d_out c)) ;;
  _ <- assert (eqb_list (shape g) [d_n c; einsum_features_out L; nrep L; sin L; sin L]) ;;
  ri <- view [d_n c; 1; nrep L; 1; 1] (d_rep c) ;;
  g2 <- index_one_hot 2 g ri ;;
  _ <- assert (eqb_list (shape g2) [d_n c; einsum_features_out L; sin L; sin L]) ;;
  v <- view [size g2 0; size g2 1; sin L * sin L] g2 ;;
  Ok (logits_to_log_weights v 2 (d_tsum c)).
(** mixing.py:99-120 *)
Definition dmixing_select (L : slay) (c : dctx) : res (tensor num) :=
  g <- index_one_hot 2 (unsqueeze 0 (logits L)) (unsqueeze 3 (d_out c)) ;;
  _ <- assert (eqb_list (shape g) [d_n c; nf L; sin L]) ;;
  Ok (logits_to_log_weights g 2 (d_tsum c)).

(** rep.view(N, 1, 1, R) and index_one_hot of a cached input along the repetitions, e.g. linsum.py:143-146 *)
Definition drep (x : tensor num) (n r : nat) (rep : tensor num) : res (tensor num) :=
  ri <- view [n; 1; 1; r] rep ;; index_one_hot 3 x ri.
Definition deinsum_condition (L : slay) (c : dctx) (ca : cache) (lw : tensor num) : res (tensor num) := (* einsum.py:178-198 *)
  match ca with
  | CLR cl cr =>
      ll <- drep cl (d_n c) (nrep L) (d_rep c) ;;
      lr <- drep cr (d_n c) (nrep L) (d_rep c) ;;
      s <- badd (unsqueeze 3 ll) (unsqueeze 2 lr) ;;
      lls <- view [d_n c; einsum_features_out L; sin L * sin L] s ;;
      renormalize lw lls
  | _ => Err KeyErr
  end.
Definition dlinsum_condition (L : slay) (c : dctx) (ca : cache) (lw : tensor num) : res (tensor num) := (* linsum.py:138-158 *)
  match ca with
  | CLR cl cr =>
      ll <- drep cl (d_n c) (nrep L) (d_rep c) ;;
      lr <- drep cr (d_n c) (nrep L) (d_rep c) ;;
      s <- badd ll lr ;;
      lls <- view [d_n c; linsum_features_out L; sin L] s ;;
      renormalize lw lls
  | _ => Err KeyErr
  end.
Definition dsum_condition (L : slay) (c : dctx) (ca : cache) (lw : tensor num) : res (tensor num) := (* sum.py:142-158, linsum.py:327-343 *)
  match ca with
  | CIn x => lls <- drep x (d_n c) (nrep L) (d_rep c) ;; renormalize lw lls
  | _ => Err KeyErr
  end.
Definition dmixing_condition (L : slay) (c : dctx) (ca : cache) (lw : tensor num) : res (tensor num) := (* mixing.py:81-97 *)
  match ca with
  | CIn x =>
      pi <- view [d_n c; 1; sout L; 1] (d_out c) ;;
      lls <- index_one_hot 2 x pi ;;
      renormalize lw lls
  | _ => Err KeyErr
  end.

(** einsum.py:74-81: one-hot rows of both components of the flat index; F.one_hot infers the number
    of classes, here sin. *)
Definition oh_0 (s : nat) : tensor num := unsqueeze 0 (unsqueeze 0 (one_hot s (repeat_interleave 0 s (mkT [s] (fun idx => hd 0 idx))))).
Definition oh_1 (s : nat) : res (tensor num) :=
  a <- repeat_t [s] (mkT [s] (fun idx => hd 0 idx)) ;; Ok (unsqueeze 0 (unsqueeze 0 (one_hot s a))).
Definition deinsum_indices (L : slay) (c : dctx) (u : list nat -> R) (lw : tensor num) : res (tensor num) := (* einsum.py:154-176 *)
  i <- sample_categorical_diff u (d_mpe c) lw 2 ;;
  let i := unsqueeze 3 i in
  a <- bmul i (oh_0 (sin L)) ;;
  o1 <- oh_1 (sin L) ;;
  b <- bmul i o1 ;;
  s <- stack2 2 (tsum 2 a) (tsum 2 b) ;;
  view_infer [d_n c] [sin L] s.
Definition dlinsum_indices (L : slay) (c : dctx) (u : list nat -> R) (lw : tensor num) : res (tensor num) := (* linsum.py:112-136 *)
  k <- sample_categorical_diff u (d_mpe c) lw 2 ;;
  i <- view_infer [d_n c] [sin L] (repeat_interleave 1 2 k) ;;
  Ok (if 0 <? linsum_pad L then take 1 (size i 1 - linsum_pad L) i else i).
Definition dlinsum2_indices (L : slay) (c : dctx) (u : list nat -> R) (lw : tensor num) : res (tensor num) := (* linsum.py:303-325 *)
  k <- sample_categorical_diff u (d_mpe c) lw 2 ;;
  i <- view_infer [d_n c] [sin L] k ;;
  Ok (if 0 <? linsum_pad L then take 1 (size i 1 - linsum_pad L) i else i).
Definition dsum_indices (c : dctx) (u : list nat -> R) (lw : tensor num) : res (tensor num) := (* sum.py:128-140, mixing.py:66-79 *)
  sample_categorical_diff u (d_mpe c) lw 2.

(** abstract_layers.py:191-206 *)
Definition dsample_with (fout so nr : nat) (sel : dctx -> res (tensor num))
  (cond : dctx -> cache -> tensor num -> res (tensor num))
  (draw : dctx -> (list nat -> R) -> tensor num -> res (tensor num))
  (ca : option cache) (u : list nat -> R) (c : dctx) : res dctx :=
  _ <- dcheck fout so nr c ;;
  lw <- sel c ;;
  lw <- match ca with None => Ok lw | Some x => cond c x lw end ;;
  i <- draw c u lw ;;
  Ok (dset_out c i).
Definition deinsum_sample (L : slay) :=
  dsample_with (einsum_features_out L) (sout L) (nrep L) (deinsum_select L) (deinsum_condition L) (deinsum_indices L).
Definition dlinsum_sample (L : slay) :=
  dsample_with (linsum_features_out L) (sout L) (nrep L) (dlinsum_select L) (dlinsum_condition L) (dlinsum_indices L).
Definition dlinsum2_sample (L : slay) :=
  dsample_with (linsum_features_out L) (sout L) (nrep L) (dlinsum2_select L) (dsum_condition L) (dlinsum2_indices L).
Definition dsum_sample (L : slay) :=
  dsample_with (nf L) (sout L) (nrep L) (dsum_select L) (dsum_condition L) dsum_indices.
Definition dmixing_sample (L : slay) :=
  dsample_with (nf L) (sout L) (nrep L) (dmixing_select L) (dmixing_condition L) dsum_indices.
(** product.py:25-29 *)
Definition drootprod_sample (nfeat : nat) (c : dctx) : res dctx :=
  o <- repeat_t (set_nth 1 nfeat (repeat 1 (dim (d_out c)))) (d_out c) ;; Ok (dset_out c o).

Definition dlayer_sample (l : layer) (ca : option cache) (u : list nat -> R) (c : dctx) : res dctx :=
  match l with
  | LEin L => deinsum_sample L ca u c
  | LLin L => dlinsum_sample L ca u c
  | LLin2 L => dlinsum2_sample L ca u c
  | LSum L => dsum_sample L ca u c
  | LRoot D => drootprod_sample D c
  end.

(** * Leaves *)
(** abstract_leaf.py:135-165, [s] of shape (N, 1, C, F, L, R, 1) *)
Definition dleaf_select (s : tensor num) (p : option (tensor num)) (rep : tensor num) : res (tensor num) :=
  _ <- assert (size s 1 =? 1) ;;
  let s := squeeze 1 s in
  r1 <- view_infer [] [1; 1; 1; size s 4; 1] rep ;;
  s <- index_one_hot 4 s r1 ;;
  s <- match p with
       | None => Ok s
       | Some p => index_one_hot 3 s (unsqueeze 4 (unsqueeze 1 p))
       end ;;
  Ok (squeeze (dim s - 1) s).
(** factorized_leaf.py:129-158, differentiable branch :136-145 *)
Definition dfact_index {V} (lf : bleaf V) (sc : tensor nat) (N : nat) (out rep s : tensor num) : res (tensor num) :=
  _ <- assert (eqb_list (shape s) [N; lf_C lf; lf_F lf; lf_L lf]) ;;
  let scopes := unsqueeze 0 (tmap (fun k => Fin (INR k)) sc) in
  r_idx <- view_infer [N; 1; 1] [] rep ;;
  scopes <- index_one_hot 3 scopes r_idx ;;
  indices_in <- index_one_hot 2 (unsqueeze 1 out) (unsqueeze 3 scopes) ;;
  index_one_hot 3 s (unsqueeze 1 indices_in).
(** factorized_leaf.py:325-367, differentiable branch :333-351 *)
Definition dsimple_index {V} (lf : bleaf V) (Fo : nat) (pinv : tensor nat) (N : nat) (out s : tensor num) : res (tensor num) :=
  _ <- assert (eqb_list (shape s) [N; lf_C lf; lf_F lf; lf_L lf]) ;;
  let o := unsqueeze 1 out in
  o <- expand [size o 0; simple_card (lf_F lf) Fo; size o 2; size o 3] o ;;
  o <- view [N; lf_F lf + simple_dummy (lf_F lf) Fo; lf_L lf] o ;;
  o <- index_dim 1 pinv o ;;
  let o := if 0 <? simple_dummy (lf_F lf) Fo then take 1 (size o 1 - simple_dummy (lf_F lf) Fo) o else o in
  index_one_hot 3 s (unsqueeze 1 o).

(** * Einet.sample with is_differentiable=True *)
Section Einet.
Context {V : Type}.
(** Leaf values as floats. *)
Variable val : V -> R.
Variable u : nat -> list nat -> R.

Definition dinit_ctx (a : sargs (V := V)) : dctx :=                                    (* :597-604 *)
  let n := num_samples a in mkD n (full [n; 1; 1] (Fin 1%R)) (full [n; 1] (Fin 1%R)) (a_mpe a) (a_tsum a).

(** torch.zeros(n, K, 1).scatter_(1, indices.unsqueeze(-1), 1) for indices of shape (m, 1). *)
Definition scatter_class (n K : nat) (cs : list nat) : res (tensor num) :=
  if (length cs <=? n) && forallb (fun y => y <? K) cs then
    Ok (mkT [n; K; 1] (fun idx => match idx with
      | [i; k; _] => Fin (if (i <? length cs) && (k =? nth i cs 0) then 1%R else 0%R)
      | _ => Fin 0%R end))
  else Err RuntimeErr.
(** :606-645.  The list branch calls the misspelt [requireds_grad_]. *)
Definition dclass_step (E : einet V) (a : sargs (V := V)) (c : dctx) : res (nat * dctx) :=
  let n := num_samples a in
  if 1 <? e_K E then
    match a_class a with
    | CList cs => _ <- scatter_class n (e_K E) cs ;; Err AttributeErr
    | CInt y => o <- scatter_class n (e_K E) (repeat y n) ;; Ok (n, dset_out c o)
    | CNone => root <- attr (e_root E) ;; c' <- dsum_sample root None (u 0) c ;; Ok (n, c')
    end
  else Ok (n, c).
(** :647-657 *)
Definition dmixing_step (E : einet V) (cs : caches) (n : nat) (c : dctx) : res dctx :=
  if 1 <? e_R E then
    m <- attr (e_mixing E) ;;
    c' <- dmixing_sample m (ca_mixing cs) (u 1) c ;;
    rep <- view [n; e_R E] (d_out c') ;;
    Ok (mkD (d_n c') (d_out c) rep (d_mpe c') (d_tsum c'))
  else Ok c.
(** :659-661, layer [j] from the bottom draws with [u (2 + j)]. *)
Fixpoint dsample_layers (ls : list (layer * option cache)) (j : nat) (c : dctx) : res dctx :=
  match ls with
  | [] => Ok c
  | (l, ca) :: ls' => c' <- dsample_layers ls' (S j) c ;; dlayer_sample l ca (u (2 + j)) c'
  end.
(** .long(): truncation; what is not an index is sent out of range, where [gather] raises. *)
Definition to_index (bound : nat) (x : num) : nat :=
  match x with
  | Fin r => if (rtrunc r <? 0)%Z then bound else Z.to_nat (rtrunc r)
  | _ => bound
  end.
(** :663-675, differentiable branch :665-672 *)
Definition dunpermute (E : einet V) (n : nat) (c : dctx) : res dctx :=
  match e_perm E with
  | None => Ok c
  | Some (_, pinv) =>
      let p := tmap (fun k => Fin (INR k)) (buffer (e_R E) (e_F E) pinv) in
      p <- expand [n; e_R E; e_F E] (unsqueeze 0 p) ;;
      q <- index_one_hot 1 p (unsqueeze 2 (d_rep c)) ;;
      q <- expand [size q 0; size q 1; e_L E] (unsqueeze 2 q) ;;
      o <- gather 1 (tmap (to_index (e_F E)) q) (d_out c) ;;
      Ok (dset_out c o)
  end.
(** The index step of the leaf layers, after the draw of shape (N, 1, C, F, L, R, 1). *)
Definition dleaf_index (l : leaf_layer V) (c : dctx) (s : tensor num) : res (tensor num) :=
  match l with
  | LFact lf _ sc => s <- dleaf_select s None (d_rep c) ;; dfact_index lf sc (d_n c) (d_out c) (d_rep c) s
  | LSimple lf Fo _ pinv => s <- dleaf_select s None (d_rep c) ;; dsimple_index lf Fo (vec pinv) (d_n c) (d_out c) s
  | LBase lf => dleaf_select s (Some (d_out c)) (d_rep c)
  end.
(** :678 *)
Definition dleaf_sample (l : leaf_layer V) (c : dctx) (mode : bool) : M V (tensor num) :=
  _ <~ lift (guard (lf_ctx (leaf_of l)) TypeErr) ;;
  s <~ leaf_mode_or_draw (leaf_of l) (d_n c) mode ;;
  lift (dleaf_index l c (tmap (fun v => Fin (val v)) s)).
(** A float read from the evidence; NaN is a missing entry. *)
Definition num_of (o : option V) : num := match o with Some v => Fin (val v) | None => NaN end.
(** :684-695 *)
Definition dmerge_evidence (ev : tensor (option V)) (ms : option (list nat)) (s : tensor num) : res (tensor num) :=
  e <- view (shape s) (tmap num_of ev) ;;
  out <- match ms with
         | None => Ok (mkT (shape e) (fun idx => if isnan (get e idx) then get s idx else get e idx))
         | Some m =>
             _ <- guard (forallb (fun f => f <? size e 2) m) IndexErr ;;
             Ok (mkT (shape e) (fun idx => if existsb (Nat.eqb (nth 2 idx 0)) m then get s idx else get e idx))
         end ;;
  view (shape ev) out.
Definition dsample_ctx (E : einet V) (a : sargs (V := V)) : res dctx :=
  _ <- check_args E a ;;
  cs <- ev_caches E a ;;
  '(n, c) <- dclass_step E a (dinit_ctx a) ;;
  c <- dmixing_step E cs n c ;;
  c <- dsample_layers (combine (e_layers E) (ca_layers cs)) 0 c ;;
  dunpermute E n c.
Definition dsample (E : einet V) (a : sargs (V := V)) : M V (tensor num) :=
  c <~ lift (dsample_ctx E a) ;;
  s <~ dleaf_sample (e_leaf E) c (a_mpe a || a_mpel a) ;;
  match a_ev a with
  | None => Ret s
  | Some e => lift (dmerge_evidence e (a_ms a) s)
  end.
End Einet.
