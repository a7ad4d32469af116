(** ConditionalBinomial under is_mpe: Einet.mpe and Einet.sample(is_mpe=True) with this leaf.
    Source: layers/distributions/binomial.py:242-273, abstract_leaf.py:77-84, einet.py:515-697. *)
From Coq Require Import List Arith Bool Reals.
Import ListNotations.
From Verif Require Import Base RSum Num Tensor Prob Layers Leaf Family Einet CondBinom.

(** abstract_leaf.py:77-84: floor(probs * (total_count + 1)), repeated if there is one row; probs is the sigmoid of the logits, which are finite. *)
Definition cb_mode (s : cbin) (n : nat) (lg : tensor num) : res (tensor nat) :=
  let m := tmap (fun l => binomial_mode (cb_total s) (/ (1 + exp (- toR l)))%R) lg in
  if size m 0 =? 1 then repeat_t [n; 1; 1; 1; 1] m else Ok m.
(** binomial.py:242-273 with ctx.is_mpe, :257-258 *)
Definition cbm_sample (s : cbin) (ev : option (tensor (option nat))) (n : nat) (p : option (tensor nat)) (rep : tensor nat) : res (tensor nat) :=
  ev <- (match ev with Some e => Ok e | None => Err TypeErr end) ;;
  xc <- cb_cond s ev ;;
  lg <- cb_logits s xc ;;
  _ <- guard (forallb (fun idx => negb (isnan (get lg idx))) (all_idx (shape lg))) ValueErr ;;
  t <- cb_mode s n lg ;;
  t <- cb_select s rep t ;;
  cb_parents p t.
(** factorized_leaf.py:100-127 and 325-367, as [cond_leaf] *)
Definition condm_leaf (l : leaf_layer nat) (s : cbin) (ev : option (tensor (option nat))) (c : sctx) : res (tensor nat) :=
  match l with
  | LFact lf Fo sc => t <- cbm_sample s ev (c_n c) None (c_rep c) ;; fact_index lf Fo sc (c_n c) (c_out c) (c_rep c) t
  | LSimple lf Fo _ pinv => t <- cbm_sample s ev (c_n c) None (c_rep c) ;; simple_index lf Fo (vec pinv) (c_n c) (c_out c) t
  | LBase _ => cbm_sample s ev (c_n c) (Some (c_out c)) (c_rep c)
  end.
(** einet.py:515-531: mpe(evidence, marginalized_scopes) calls sample(is_mpe=True), :533-697 *)
Definition cond_mpe (E : einet nat) (s : cbin) (ev : option (tensor (option nat))) (ms : option (list nat)) : M nat (tensor (option nat)) :=
  let a := mkArgs None CNone ev true false 1 ms in
  _ <~ lift (check_args E a) ;;
  cs <~ lift (cond_caches E s a) ;;
  nc <~ class_step E a (init_ctx a) ;;
  c <~ mixing_step E cs (fst nc) (snd nc) ;;
  c <~ sample_layers (combine (e_layers E) (ca_layers cs)) c ;;
  c <~ lift (unpermute E c) ;;
  t <~ lift (condm_leaf (e_leaf E) s ev c) ;;
  match ev with
  | None => Ret (tmap Some t)
  | Some e => lift (merge_evidence e ms t)
  end.
