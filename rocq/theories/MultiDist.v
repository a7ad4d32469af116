(** A leaf layer made of several leaf distributions over parts of the features.
    Source: simple_einet/layers/distributions/multidistribution.py.

    Scopes are lists of non-negative ints.  The constructors of the parts are an argument: given the position in
    scopes_to_dist and the number of features they return a leaf or raise. *)
From Coq Require Import List Arith Lia Bool Reals.
Import ListNotations.
From Verif Require Import Base RSum Num Tensor Prob Layers Leaf Einet Diff Params.
Local Open Scope nat_scope.

(** torch.cat(ts, dim=d); an empty list raises. *)
Fixpoint cat_list {A} (d : nat) (ts : list (tensor A)) : res (tensor A) :=
  match ts with
  | [] => Err RuntimeErr
  | [t] => Ok t
  | t :: ts' => y <- cat_list d ts' ;; cat2 d t y
  end.

Section Multi.
Context {V : Type}.

(** A constructed layer: the parts with their scopes. *)
Record multi : Type := mkMulti { md_F : nat; md_C : nat; md_L : nat; md_R : nat; md_parts : list (list nat * bleaf V) }.
Definition all_scopes (parts : list (list nat * bleaf V)) : list nat := flat_map fst parts.
(** :38-60 *)
Definition multi_new (F C L R : nat) (scopes : list (list nat)) (mk : nat -> nat -> res (bleaf V)) : res multi :=
  _ <- assert (length (concat scopes) =? F) ;;
  parts <- mapM (fun i => let sc := nth i scopes [] in lf <- mk i (length sc) ;; Ok (sc, lf)) (seq 0 (length scopes)) ;;
  Ok (mkMulti F C L R parts).
(** :63 *)
Definition inverted (m : multi) : list nat := argsort (all_scopes (md_parts m)).
(** :68; [sorted] *)
Definition sort_list (l : list nat) : list nat := map (fun i => nth i l 0) (argsort l).
Definition needs_inversion (m : multi) : bool := negb (eqb_list (all_scopes (md_parts m)) (sort_list (all_scopes (md_parts m)))).
(** :83-85, :115-117 *)
Definition reorder {A} (m : multi) (t : tensor A) : res (tensor A) :=
  if needs_inversion m then index_dim 2 (vec (inverted m)) t else Ok t.

(** :70-90 *)
Definition multi_forward (m : multi) (x : tensor (option V)) (ms : option (list nat)) : res (tensor num) :=
  lls <- mapM (fun p => x_d <- index_dim 2 (vec (fst p)) x ;; base_forward (snd p) x_d None) (md_parts m) ;;
  lls <- cat_list 2 lls ;;
  lls <- reorder m lls ;;
  marginalize_input lls ms.

(** Draws of part [i] are marked with [i]. *)
Fixpoint tag {A} (i : nat) (p : M V A) : M V A :=
  match p with
  | Ret a => Ret a
  | Fail e => Fail e
  | Cat w k => Cat w (fun j => tag i (k j))
  | LeafD key k => LeafD (i :: key) (fun v => tag i (k v))
  end.
(** :92-119 without return_leaf_params; [p = None] is ctx.indices_out = None. *)
Definition part_sample (N : nat) (mpe : bool) (p : option (tensor nat)) (rep : tensor nat) (i : nat) (part : list nat * bleaf V) : M V (tensor V) :=
  p' <~ lift (match p with
              | None => Ok None
              | Some out => o <- index_dim 1 (vec (fst part)) out ;; Ok (Some o)
              end) ;;
  tag i (base_sample (snd part) N mpe p' rep).
Definition multi_sample (m : multi) (N : nat) (mpe : bool) (p : option (tensor nat)) (rep : tensor nat) : M V (tensor V) :=
  ss <~ draws (map (fun ip => part_sample N mpe p rep (fst ip) (snd ip)) (combine (seq 0 (length (md_parts m))) (md_parts m))) ;;
  s <~ lift (cat_list 2 ss) ;;
  lift (reorder m s).

(** :124-142 get_params; [ps]: get_params() of the parts. *)
Definition pad_params (K : nat) (p : tensor num) : res (tensor num) :=
  let k := last (shape p) 0 in
  if k <? K then cat2 (dim p - 1) p (full (removelast (shape p) ++ [K - k]) (Fin 0%R)) else Ok p.
Definition multi_params (ps : list (tensor num)) : res (tensor num) :=
  match ps with
  | [] => Err ValueErr                                         (* max([]) *)
  | _ => ps <- mapM (pad_params (list_max (map (fun p => last (shape p) 0) ps))) ps ;; cat_list 2 ps
  end.

(** An Einet whose base leaf is such a layer: [E] gives everything but the base leaf. *)
Definition multi_leaf_forward (m : multi) (l : leaf_layer V) (x : tensor (option V)) (ms : option (list nat)) : res (tensor num) :=
  y <- multi_forward m x ms ;;
  match l with
  | LFact lf Fo sc => fact_forward lf Fo sc y
  | LSimple lf Fo perm _ => simple_forward lf Fo (vec perm) y
  | LBase _ => Ok y
  end.
Definition multi_leaf_sample (m : multi) (l : leaf_layer V) (c : sctx) (mpe : bool) : M V (tensor V) :=
  match l with
  | LFact lf Fo sc => s <~ multi_sample m (c_n c) mpe None (c_rep c) ;; lift (fact_index lf Fo sc (c_n c) (c_out c) (c_rep c) s)
  | LSimple lf Fo _ pinv => s <~ multi_sample m (c_n c) mpe None (c_rep c) ;; lift (simple_index lf Fo (vec pinv) (c_n c) (c_out c) s)
  | LBase _ => multi_sample m (c_n c) mpe (Some (c_out c)) (c_rep c)
  end.
Definition multi_einet_forward (E : einet V) (m : multi) (x : tensor (option V)) (ms : option (list nat)) : res (tensor num * caches) :=
  x <- prepare E x ;;
  y <- multi_leaf_forward m (e_leaf E) x ms ;;
  y <- merge_channels E y ;;
  forward_upper E y.
Definition multi_ev_caches (E : einet V) (m : multi) (a : sargs) : res caches :=
  match a_ev a with
  | None => Ok (no_caches E)
  | Some e => '(_, cs) <- multi_einet_forward E m e (a_ms a) ;; Ok cs
  end.
Definition multi_einet_sample (E : einet V) (m : multi) (a : sargs) : M V (tensor (option V)) :=
  _ <~ lift (check_args E a) ;;
  cs <~ lift (multi_ev_caches E m a) ;;
  nc <~ class_step E a (init_ctx a) ;;
  c <~ mixing_step E cs (fst nc) (snd nc) ;;
  c <~ sample_layers (combine (e_layers E) (ca_layers cs)) c ;;
  c <~ lift (unpermute E c) ;;
  s <~ multi_leaf_sample m (e_leaf E) c (a_mpe a || a_mpel a) ;;
  match a_ev a with
  | None => Ret (tmap Some s)
  | Some e => lift (merge_evidence e (a_ms a) s)
  end.
End Multi.
Arguments multi : clear implicits.
