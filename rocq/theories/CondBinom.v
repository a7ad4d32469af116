(** ConditionalBinomial: a Binomial leaf whose first half of the features has logits computed from other features.
    Source: layers/distributions/binomial.py:131-273.

    The module [cond_fn] is an argument.  Not here: is_mpe in sample (CondMpe.v). *)
From Coq Require Import List Arith Bool Reals.
Import ListNotations.
From Verif Require Import Base RSum Num Tensor Prob Layers Leaf Family Einet.

(** :154-183; [cb_base] and [cb_unc] are probs_conditioned_base and probs_unconditioned, which are used as logits. *)
Record cbin : Type := mkCB {
  cb_C : nat; cb_F : nat; cb_L : nat; cb_R : nat; cb_total : nat;
  cb_fn : tensor (option nat) -> res (tensor num);
  cb_idxs : list nat;
  cb_base : tensor num; cb_unc : tensor num }.

(** x[:, :, cond_idxs, None, None], :231 *)
Definition cb_cond (s : cbin) (x : tensor (option nat)) : res (tensor (option nat)) :=
  match shape x with
  | [N; C; F] =>
      _ <- guard (forallb (fun i => i <? F) (cb_idxs s)) IndexErr ;;
      Ok (mkT [N; C; length (cb_idxs s); 1; 1] (fun idx => match idx with
            | [n; c; i; _; _] => get x [n; c; nth i (cb_idxs s) 0] | _ => None end))
  | _ => Err IndexErr
  end.
(** :185-217 get_conditioned_distribution, the logits *)
Definition cb_logits (s : cbin) (xc : tensor (option nat)) : res (tensor num) :=
  let hw := Nat.sqrt (size xc 2) in
  _ <- assert (hw * hw =? size xc 2) ;;
  xv <- view_infer [] [size xc 1; hw; hw] xc ;;
  y <- cb_fn s xv ;;
  y <- view [size xc 0; size xc 1; cb_L s; cb_R s; hw * hw] y ;;
  let y := permute [0; 1; 4; 2; 3] y in
  y <- badd (cb_base s) y ;;
  u <- expand (size xc 0 :: tl (shape (cb_unc s))) (cb_unc s) ;;
  cat2 2 y u.
(** Binomial(total_count, logits=l).log_prob(v) *)
Definition binomial_lpl (n : nat) (l : num) (v : nat) : num :=
  let total := Fin (INR n) in
  let normalize_term := nsub (nadd (nmul total (nmax0 l)) (nmul total (nlog1p (nexp (nneg (nabs l)))))) (lgamma1 n) in
  nsub (nsub (nsub (nmul (Fin (INR v)) l) (lgamma1 v)) (lgamma1 (n - v))) normalize_term.
(** :219-240 forward.  The constructor of the distribution rejects logits that are NaN, and log_prob rejects values outside
    0 .. total_count, NaN among them. *)
Definition in_support (n : nat) (o : option nat) : bool := match o with Some v => v <=? n | None => false end.
Definition cb_forward (s : cbin) (x : tensor (option nat)) (ms : option (list nat)) : res (tensor num) :=
  xc <- cb_cond s x ;;
  lg <- cb_logits s xc ;;
  _ <- guard (forallb (fun idx => negb (isnan (get lg idx))) (all_idx (shape lg))) ValueErr ;;
  _ <- guard (forallb (fun idx => in_support (cb_total s) (get x idx)) (all_idx (shape x))) ValueErr ;;
  y <- bop (fun o l => binomial_lpl (cb_total s) l (match o with Some v => v | None => 0 end)) (if dim x =? 3 then unsq_end 2 x else x) lg ;;
  marginalize_input y ms.

(** einet.py:118-204 with this leaf: Einet.forward_full after the base leaf is replaced. *)
Definition cond_full (E : einet nat) (s : cbin) (x : tensor (option nat)) (ms : option (list nat)) : res (tensor num * caches) :=
  x <- prepare E x ;;
  y <- cb_forward s x ms ;;
  y <- (match e_leaf E with LFact lf Fo sc => fact_forward lf Fo sc y | LSimple lf Fo perm _ => simple_forward lf Fo (vec perm) y | LBase _ => Ok y end) ;;
  y <- merge_channels E y ;;
  forward_upper E y.
Definition cond_forward (E : einet nat) (s : cbin) (x : tensor (option nat)) (ms : option (list nat)) : res (tensor num) :=
  '(y, _) <- cond_full E s x ms ;; Ok y.

(** * Sampling *)
(** d.sample(), :260: one independent draw for every entry; the value [v] has the probability of the Binomial. *)
Definition cb_draw (s : cbin) (lg : tensor num) : M nat (tensor nat) :=
  draw_tensor 0 (shape lg) (fun idx => Cat (map (binomial_lpl (cb_total s) (get lg idx)) (seq 0 (S (cb_total s)))) (fun v => Ret v)).
(** :262-266 *)
Definition cb_select (s : cbin) (rep : tensor nat) (t : tensor nat) : res (tensor nat) :=
  r <- view_infer [] [1; 1; 1; 1] rep ;;
  r <- expand [size r 0; cb_C s; cb_F s; cb_L s; size r 4] r ;;
  t <- gather 4 r t ;;
  Ok (squeeze 4 t).
(** :268-271 *)
Definition cb_parents (p : option (tensor nat)) (t : tensor nat) : res (tensor nat) :=
  match p with
  | None => Ok t
  | Some o => t <- gather 2 (unsqueeze 2 o) t ;; Ok (squeeze 2 t)
  end.
(** :242-273 sample without is_mpe; mpe_at_leaves is not read.  [ev] is ctx.evidence as the user passed it, and :253 indexes its
    third dimension: [cb_cond] is right for two and three dimensions, evidence of four dimensions is not modelled. *)
Definition cb_sample (s : cbin) (ev : option (tensor (option nat))) (p : option (tensor nat)) (rep : tensor nat) : M nat (tensor nat) :=
  ev <~ lift (match ev with Some e => Ok e | None => Err TypeErr end) ;;
  xc <~ lift (cb_cond s ev) ;;
  lg <~ lift (cb_logits s xc) ;;
  _ <~ lift (guard (forallb (fun idx => negb (isnan (get lg idx))) (all_idx (shape lg))) ValueErr) ;;
  t <~ cb_draw s lg ;;
  t <~ lift (cb_select s rep t) ;;
  lift (cb_parents p t).
(** factorized_leaf.py:100-127 and 325-367: the layer above passes no parents and indexes afterwards. *)
Definition cond_leaf (l : leaf_layer nat) (s : cbin) (ev : option (tensor (option nat))) (c : sctx) : M nat (tensor nat) :=
  match l with
  | LFact lf Fo sc => t <~ cb_sample s ev None (c_rep c) ;; lift (fact_index lf Fo sc (c_n c) (c_out c) (c_rep c) t)
  | LSimple lf Fo _ pinv => t <~ cb_sample s ev None (c_rep c) ;; lift (simple_index lf Fo (vec pinv) (c_n c) (c_out c) t)
  | LBase _ => cb_sample s ev (Some (c_out c)) (c_rep c)
  end.
(** einet.py:533-697 with this leaf (Einet.sample) *)
Definition cond_caches (E : einet nat) (s : cbin) (a : sargs) : res caches :=
  match a_ev a with
  | None => Ok (no_caches E)
  | Some e => '(_, cs) <- cond_full E s e (a_ms a) ;; Ok cs
  end.
Definition cond_sample (E : einet nat) (s : cbin) (a : sargs) : M nat (tensor (option nat)) :=
  _ <~ lift (check_args E a) ;;
  cs <~ lift (cond_caches E s a) ;;
  nc <~ class_step E a (init_ctx a) ;;
  c <~ mixing_step E cs (fst nc) (snd nc) ;;
  c <~ sample_layers (combine (e_layers E) (ca_layers cs)) c ;;
  c <~ lift (unpermute E c) ;;
  t <~ cond_leaf (e_leaf E) s (a_ev a) c ;;
  match a_ev a with
  | None => Ret (tmap Some t)
  | Some e => lift (merge_evidence e (a_ms a) t)
  end.
