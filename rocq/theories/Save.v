(** Saving and loading: model.state_dict() and model.load_state_dict(...), as used in main.py:227-234.
    Sources for the names: abstract_layers.py:134 (logits), layers/factorized_leaf.py:40, 67, 240, 251-254 (base_leaf,
    scopes, permutation, inverse_permutation), einet.py:308-340, 436-472 (leaf, layers, permutation, permutation_inv,
    mixing, _class_sampling_root), mixture.py:38-41 (models, mixture_weights, centroids).

    Simplifications.  A state dict is a list of names and values.  Entries that the configuration fixes and
    nothing changes are left out: dropout, unraveled_channel_indices, marginalization_constant and the parameter
    _class_sampling_root.weights (never read).  load_state_dict is torch.nn.Module's with strict=True: a missing key, an
    unexpected key or a value of another shape raises RuntimeError.  The kind of a value is fixed by its name. *)
From Coq Require Import List Arith Lia Bool ZArith Reals String.
Import ListNotations.
From Verif Require Import Base RSum Num Tensor Prob Layers Leaf TypeChecks Einet Build Mixture Cluster Piecewise PieceLeaf.
Local Open Scope string_scope.

(** A key such as layers.0.logits *)
Inductive part : Type := Nm (s : string) | Ix (i : nat).
Definition name := list part.
Definition name_dec (a b : name) : {a = b} + {a <> b}.
Proof. apply list_eq_dec. intros x y. decide equality; [apply string_dec|apply Nat.eq_dec]. Defined.

(** Parameters, scopes, one permutation, one permutation per repetition, mixture weights, centroids *)
Inductive value : Type :=
| VNum (t : tensor num) | VNat (t : tensor nat) | VVec (l : list nat) | VRows (n m : nat) (rows : nat -> list nat)
| VWts (l : list R) | VCen (t : tensor R).
Definition vshape (v : value) : list nat :=
  match v with
  | VNum t => shape t | VNat t => shape t | VVec l => [List.length l] | VRows n m _ => [n; m] | VWts l => [List.length l] | VCen t => shape t
  end.
Definition dict := list (name * value).
Fixpoint find_key (d : dict) (n : name) : option value :=
  match d with
  | [] => None
  | (n', v) :: d' => if name_dec n n' then Some v else find_key d' n
  end.

(** * One model *)
(** [md_par]: the parameters of the base leaf by name; [md_x]: its attributes that are neither parameters nor buffers.
    The leaf object inside [md_net] is not used: [leaf_class] gives the leaf that the parameters and attributes make. *)
Record module (V X : Type) : Type := mkMod { md_net : einet V; md_par : list (string * tensor num); md_x : X }.
Arguments mkMod {V X}. Arguments md_net {V X}. Arguments md_par {V X}. Arguments md_x {V X}.
Definition leaf_class (V X : Type) : Type := list (string * tensor num) -> X -> res (bleaf V).

Section Module.
Context {V X : Type}.

(** einet.py:95-113 *)
Definition new_module (g : config) (o : oracle V) (par : list (string * tensor num)) (x : X) : res (module V X) :=
  E <- build g o ;; Ok (mkMod E par x).

Definition with_leaf (E : einet V) (lf : bleaf V) : einet V :=
  mkE (e_F E) (e_C E) (e_L E) (e_R E) (e_K E)
    (match e_leaf E with
     | LFact _ Fo sc => LFact lf Fo sc
     | LSimple _ Fo p q => LSimple lf Fo p q
     | LBase _ => LBase lf
     end) (e_perm E) (e_layers E) (e_mixing E) (e_root E).
(** The network with the current parameters; a leaf that cannot be evaluated raises when it is used. *)
Definition network (cls : leaf_class V X) (m : module V X) : res (einet V) :=
  lf <- cls (md_par m) (md_x m) ;; Ok (with_leaf (md_net m) lf).
Definition module_forward (cls : leaf_class V X) (m : module V X) (x : tensor (option V)) (ms : option (list nat)) : res (tensor num) :=
  E <- network cls m ;; forward E x ms.
Definition module_sample (cls : leaf_class V X) (m : module V X) (a : sargs) : M V (tensor (option V)) :=
  E <~ lift (network cls m) ;; sample E a.

(** ** state_dict *)
Definition leaf_prefix (l : leaf_layer V) : name :=
  match l with LBase _ => [Nm "leaf"] | _ => [Nm "leaf"; Nm "base_leaf"] end.
Definition par_entries (p : name) (par : list (string * tensor num)) : dict :=
  map (fun nt => ((p ++ [Nm (fst nt)])%list, VNum (snd nt))) par.
Definition leaf_entries (l : leaf_layer V) : dict :=
  match l with
  | LFact _ _ sc => [([Nm "leaf"; Nm "scopes"], VNat sc)]
  | LSimple _ _ p q => [([Nm "leaf"; Nm "permutation"], VVec p); ([Nm "leaf"; Nm "inverse_permutation"], VVec q)]
  | LBase _ => []
  end.
Definition layer_entries (p : name) (l : layer) : dict :=
  match l with
  | LEin L | LLin L | LLin2 L | LSum L => [((p ++ [Nm "logits"])%list, VNum (logits L))]
  | LRoot _ => []
  end.
Fixpoint layers_entries (i : nat) (ls : list layer) : dict :=
  match ls with
  | [] => []
  | l :: ls' => (layer_entries [Nm "layers"; Ix i] l ++ layers_entries (S i) ls')%list
  end.
Definition slay_entries (p : name) (o : option slay) : dict :=
  match o with Some L => [((p ++ [Nm "logits"])%list, VNum (logits L))] | None => [] end.
Definition perm_entries (E : einet V) : dict :=
  match e_perm E with
  | Some (p, q) => [([Nm "permutation"], VRows (e_R E) (e_F E) p); ([Nm "permutation_inv"], VRows (e_R E) (e_F E) q)]
  | None => []
  end.
Definition state_dict (m : module V X) : dict :=
  let E := md_net m in
  (par_entries (leaf_prefix (e_leaf E)) (md_par m) ++ leaf_entries (e_leaf E) ++ layers_entries 0 (e_layers E) ++
   perm_entries E ++ slay_entries [Nm "mixing"] (e_mixing E) ++ slay_entries [Nm "_class_sampling_root"] (e_root E))%list.

(** ** load_state_dict *)
Definition same_shape (a b : list nat) : res unit := guard (eqb_list a b) RuntimeErr.
(** The value that a key gets, given the value it has *)
Definition load_num (d : dict) (n : name) (t : tensor num) : res (tensor num) :=
  match find_key d n with Some (VNum t') => _ <- same_shape (shape t') (shape t) ;; Ok t' | _ => Err RuntimeErr end.
Definition load_nat (d : dict) (n : name) (t : tensor nat) : res (tensor nat) :=
  match find_key d n with Some (VNat t') => _ <- same_shape (shape t') (shape t) ;; Ok t' | _ => Err RuntimeErr end.
Definition load_vec (d : dict) (n : name) (l : list nat) : res (list nat) :=
  match find_key d n with Some (VVec l') => _ <- same_shape [List.length l'] [List.length l] ;; Ok l' | _ => Err RuntimeErr end.
Definition load_rows (d : dict) (n : name) (a b : nat) : res (nat -> list nat) :=
  match find_key d n with Some (VRows a' b' rows) => _ <- same_shape [a'; b'] [a; b] ;; Ok rows | _ => Err RuntimeErr end.
Definition load_slay (d : dict) (p : name) (L : slay) : res slay :=
  t <- load_num d (p ++ [Nm "logits"])%list (logits L) ;; Ok (mkL (nf L) (sin L) (sout L) (nrep L) t).
Definition load_layer (d : dict) (p : name) (l : layer) : res layer :=
  match l with
  | LEin L => L' <- load_slay d p L ;; Ok (LEin L')
  | LLin L => L' <- load_slay d p L ;; Ok (LLin L')
  | LLin2 L => L' <- load_slay d p L ;; Ok (LLin2 L')
  | LSum L => L' <- load_slay d p L ;; Ok (LSum L')
  | LRoot D => Ok (LRoot D)
  end.
Fixpoint load_layers (d : dict) (i : nat) (ls : list layer) : res (list layer) :=
  match ls with
  | [] => Ok []
  | l :: ls' => l' <- load_layer d [Nm "layers"; Ix i] l ;; r <- load_layers d (S i) ls' ;; Ok (l' :: r)
  end.
Definition load_opt (d : dict) (p : name) (o : option slay) : res (option slay) :=
  match o with Some L => L' <- load_slay d p L ;; Ok (Some L') | None => Ok None end.
Definition load_leaf (d : dict) (l : leaf_layer V) : res (leaf_layer V) :=
  match l with
  | LFact lf Fo sc => sc' <- load_nat d [Nm "leaf"; Nm "scopes"] sc ;; Ok (LFact lf Fo sc')
  | LSimple lf Fo p q =>
      p' <- load_vec d [Nm "leaf"; Nm "permutation"] p ;;
      q' <- load_vec d [Nm "leaf"; Nm "inverse_permutation"] q ;; Ok (LSimple lf Fo p' q')
  | LBase lf => Ok (LBase lf)
  end.
Definition load_perm (d : dict) (E : einet V) : res (option ((nat -> list nat) * (nat -> list nat))) :=
  match e_perm E with
  | Some _ =>
      p <- load_rows d [Nm "permutation"] (e_R E) (e_F E) ;;
      q <- load_rows d [Nm "permutation_inv"] (e_R E) (e_F E) ;; Ok (Some (p, q))
  | None => Ok None
  end.
Definition load_par (d : dict) (p : name) (par : list (string * tensor num)) : res (list (string * tensor num)) :=
  mapM (fun nt => t <- load_num d (p ++ [Nm (fst nt)])%list (snd nt) ;; Ok (fst nt, t)) par.
Definition known (d : dict) (n : name) : bool := match find_key d n with Some _ => true | None => false end.
Definition no_unexpected (d own : dict) : res unit := guard (forallb (fun nv => known own (fst nv)) d) RuntimeErr.

Definition load_state_dict (d : dict) (m : module V X) : res (module V X) :=
  let E := md_net m in
  _ <- no_unexpected d (state_dict m) ;;
  par <- load_par d (leaf_prefix (e_leaf E)) (md_par m) ;;
  lf <- load_leaf d (e_leaf E) ;;
  ls <- load_layers d 0 (e_layers E) ;;
  pm <- load_perm d E ;;
  mx <- load_opt d [Nm "mixing"] (e_mixing E) ;;
  rt <- load_opt d [Nm "_class_sampling_root"] (e_root E) ;;
  Ok (mkMod (mkE (e_F E) (e_C E) (e_L E) (e_R E) (e_K E) lf pm ls mx rt) par (md_x m)).
End Module.

(** * A mixture of models, mixture.py *)
Record mix_module (V X : Type) : Type := mkMix { mx_models : list (module V X); mx_weights : list R; mx_cents : tensor R }.
Arguments mkMix {V X}. Arguments mx_models {V X}. Arguments mx_weights {V X}. Arguments mx_cents {V X}.

Section Mix.
Context {V X : Type}.
(** mixture.py:19-41; the components are drawn one after the other; [empty_w] and [empty_c] are what torch.empty returns *)
Definition new_mixture (g : config) (parts : list (oracle V * list (string * tensor num) * X)) (empty_w : nat -> R) (empty_c : list nat -> R) :
    res (mix_module V X) :=
  ms <- mapM (fun '(o, par, x) => new_module g o par x) parts ;;
  let n := List.length parts in
  Ok (mkMix ms (map empty_w (seq 0 n)) (mkT [n; nval (g_F g)] empty_c)).
(** mixture.py:60-67: initialize replaces the data of both buffers *)
Definition set_clusters (m : mix_module V X) (wc : list R * tensor R) : mix_module V X := mkMix (mx_models m) (fst wc) (snd wc).

(** mixture.py:90-114 *)
Definition mixmod_forward (val : V -> R) (cls : leaf_class V X) (nf : nat) (m : mix_module V X) (x : tensor (option V)) (ms : option (list nat)) :
    res (tensor num) :=
  Es <- mapM (network cls) (mx_models m) ;; mixture_forward val nf (mx_cents m) Es x ms.
Definition mixmod_sample (val : V -> R) (cls : leaf_class V X) (nf : nat) (m : mix_module V X) (a : margs) : M V (tensor (option V)) :=
  Es <~ lift (mapM (network cls) (mx_models m)) ;; mixture_sample val nf (mx_cents m) Es (mx_weights m) a.

Definition prefixed (p : name) (d : dict) : dict := map (fun nv => ((p ++ fst nv)%list, snd nv)) d.
Fixpoint models_entries (i : nat) (ms : list (module V X)) : dict :=
  match ms with
  | [] => []
  | m :: ms' => (prefixed [Nm "models"; Ix i] (state_dict m) ++ models_entries (S i) ms')%list
  end.
Definition mix_state_dict (m : mix_module V X) : dict :=
  (models_entries 0 (mx_models m) ++
   [([Nm "mixture_weights"], VWts (mx_weights m)); ([Nm "centroids"], VCen (mx_cents m))])%list.

(** The entries under a prefix, without it *)
Definition under (p : name) (d : dict) : dict :=
  flat_map (fun nv => if name_dec (firstn (List.length p) (fst nv)) p then [(skipn (List.length p) (fst nv), snd nv)] else []) d.
Fixpoint load_models (d : dict) (i : nat) (ms : list (module V X)) : res (list (module V X)) :=
  match ms with
  | [] => Ok []
  | m :: ms' => m' <- load_state_dict (under [Nm "models"; Ix i] d) m ;; r <- load_models d (S i) ms' ;; Ok (m' :: r)
  end.
Definition load_weights (d : dict) (n : name) (l : list R) : res (list R) :=
  match find_key d n with Some (VWts l') => _ <- same_shape [List.length l'] [List.length l] ;; Ok l' | _ => Err RuntimeErr end.
Definition load_cents (d : dict) (n : name) (t : tensor R) : res (tensor R) :=
  match find_key d n with Some (VCen t') => _ <- same_shape (shape t') (shape t) ;; Ok t' | _ => Err RuntimeErr end.
Definition mix_load_state_dict (d : dict) (m : mix_module V X) : res (mix_module V X) :=
  _ <- no_unexpected d (mix_state_dict m) ;;
  ms <- load_models d 0 (mx_models m) ;;
  w <- load_weights d [Nm "mixture_weights"] (mx_weights m) ;;
  c <- load_cents d [Nm "centroids"] (mx_cents m) ;;
  Ok (mkMix ms w c).
End Mix.

(** * The PiecewiseLinear leaf, piecewise_linear.py:52-55, 210-226: xs, ys and is_initialized are plain attributes *)
Definition pl_class (F C L Rn B : nat) : leaf_class nat (option ((list nat -> list R) * (list nat -> list num))) :=
  fun _ x => match x with Some (xs, ys) => Ok (pl_leaf F C L Rn B xs ys) | None => Err ValueErr end.
