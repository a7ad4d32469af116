(** The mixture of networks, simple_einet/mixture.py.

    Simplifications.  The cluster of a row is an argument ([predict]), see Cluster.v for the one the
    code uses.  The mixture weights are real numbers.  Components are Einets (mixture.py:27-29), not ConvPcs.  The seed and the leaf
    temperature are not modelled, as in Einet.v. *)
From Coq Require Import List Arith Lia Bool Reals.
Import ListNotations.
From Verif Require Import Base RSum Num Tensor Prob Layers Leaf TypeChecks Einet Build.

(** A leaf draw of component [c] of the mixture is a draw at a key that starts with [c]. *)
Fixpoint tag {V A} (c : nat) (m : M V A) : M V A :=
  match m with
  | Ret a => Ret a
  | Fail e => Fail e
  | Cat w k => Cat w (fun i => tag c (k i))
  | LeafD key k => LeafD (c :: key) (fun v => tag c (k v))
  end.

Section Rows.
Context {A : Type}.
(** [for row in t] and [t[i]]: the rows of a tensor. *)
Definition trow (t : tensor A) (i : nat) : tensor A := mkT (tl (shape t)) (fun idx => get t (i :: idx)).
Definition unstack (t : tensor A) : list (tensor A) := map (trow t) (seq 0 (hd 0 (shape t))).
(** torch.stack(l, dim=0) *)
Definition stack (l : list (tensor A)) : res (tensor A) :=
  match l with
  | [] => Err RuntimeErr
  | t :: _ =>
      if forallb (fun u => eqb_list (shape u) (shape t)) l
      then Ok (mkT (length l :: shape t) (fun idx => match idx with i :: r => get (nth i l t) r | [] => get t [] end))
      else Err RuntimeErr
  end.
(** torch.cat(l, dim=0) of tensors that have rows. *)
Definition cat_rows (l : list (tensor A)) : res (tensor A) := stack (flat_map unstack l).
End Rows.

(** defaultdict(list) with keys in order of first insertion, mixture.py:82-86:
    [add_idx c i d] is [d[c].append(i)]. *)
Fixpoint add_idx (c i : nat) (d : list (nat * list nat)) : list (nat * list nat) :=
  match d with
  | [] => [(c, [i])]
  | (c', l) :: d' => if c =? c' then (c', l ++ [i]) :: d' else (c', l) :: add_idx c i d'
  end.
Fixpoint separate (i : nat) (clusters : list nat) (d : list (nat * list nat)) : list (nat * list nat) :=
  match clusters with
  | [] => d
  | c :: cs => separate (S i) cs (add_idx c i d)
  end.

(** [L = [(keys[i], i) for i in range(len(keys))]; L.sort(); _, permutation = zip( *L)],
    mixture.py:107-109, 176-178, 206-208.  Tuples are compared lexicographically; unpacking
    an empty zip raises ValueError. *)
Definition pair_leb (a b : nat * nat) : bool :=
  (fst a <? fst b) || ((fst a =? fst b) && (snd a <=? snd b)).
Fixpoint insert_pair (a : nat * nat) (l : list (nat * nat)) : list (nat * nat) :=
  match l with
  | [] => [a]
  | b :: l' => if pair_leb a b then a :: l else b :: insert_pair a l'
  end.
Fixpoint sort_pairs (l : list (nat * nat)) : list (nat * nat) :=
  match l with [] => [] | a :: l' => insert_pair a (sort_pairs l') end.
Definition permutation_of (keys : list nat) : res (list nat) :=
  match keys with
  | [] => Err ValueErr
  | _ => Ok (map snd (sort_pairs (combine keys (seq 0 (length keys)))))
  end.
(** [t[permutation]] *)
Definition permuted {A} (perm : list nat) (t : tensor A) : res (tensor A) :=
  index_dim 0 (mkT [length perm] (fun idx => nth (nth 0 idx 0) perm 0)) t.

Section Mixture.
Context {V : Type}.

(** mixture.py:18-38, for an EinetConfig: every component is built from the same configuration. *)
Definition mixture_build (n_components : pyval) (g : config) (os : list (oracle V)) : res (list (einet V)) :=
  _ <- check_int n_components 1 ;;
  mapM (build g) (firstn (nval n_components) os).

(** self.models[cluster_idx] *)
Definition component (models : list (einet V)) (c : nat) : res (einet V) :=
  match nth_error models c with Some E => Ok E | None => Err IndexErr end.

(** mixture.py:79-114.  [predict x ms] lists the cluster of every row. *)
Definition mix_forward (models : list (einet V)) (predict : tensor (option V) -> option (list nat) -> list nat)
    (x : tensor (option V)) (ms : option (list nat)) : res (tensor num) :=
  let groups := separate 0 (predict x ms) [] in
  parts <- mapM (fun '(c, idxs) =>
    data <- stack (map (trow x) idxs) ;;
    E <- component models c ;;
    lls <- forward E data None ;;
    Ok (combine idxs (unstack lls))) groups ;;
  let all := concat parts in
  perm <- permutation_of (map fst all) ;;
  lls <- stack (map snd all) ;;
  permuted perm lls.

(** mixture.py:140-150: the components drawn; [nc]: self.n_components. *)
Definition mix_clusters (nc : nat) (weights : list R) (n : nat) (per_cluster : option nat) (is_mpe : bool) : M V (list nat) :=
  if is_mpe then Ret [nargmax (length weights) (fun i => Fin (nth i weights 0%R))]
  else match per_cluster with
       | Some m => Ret (flat_map (fun c => repeat c m) (seq 0 nc))
       | None => draws (repeat (Cat (map (fun p => nlog (Fin p)) weights) (fun i => Ret i)) n)
       end.
(** mixture.py:152-182: sampling without evidence. *)
Definition mix_sample_free (models : list (einet V)) (a : nat -> sargs ) (clusters : list nat) : M V (tensor (option V)) :=
  let groups := separate 0 clusters [] in
  parts <~ draws (map (fun '(c, idxs) =>
    E <~ lift (component models c) ;;
    tag c (sample E (a (length idxs)))) groups) ;;
  lift (
    _ <- cat_rows parts ;;
    perm <- permutation_of clusters ;;
    all <- cat_rows parts ;;
    permuted perm all).
(** mixture.py:184-212: sampling with evidence. *)
Definition mix_sample_given (models : list (einet V)) (predict : tensor (option V) -> option (list nat) -> list nat)
    (a : tensor (option V) -> sargs ) (e : tensor (option V)) (ms : option (list nat)) : M V (tensor (option V)) :=
  let groups := separate 0 (predict e ms) [] in
  parts <~ draws (map (fun '(c, idxs) =>
    data <~ lift (stack (map (trow e) idxs)) ;;
    E <~ lift (component models c) ;;
    s <~ tag c (sample E (a data)) ;;
    Ret (combine idxs (unstack s))) groups) ;;
  let all := concat parts in
  lift (
    perm <- permutation_of (map fst all) ;;
    s <- stack (map snd all) ;;
    permuted perm s).

(** Arguments of Mixture.sample; the seed and the leaf temperature are left out. *)
Record margs : Type := mkMArgs {
  m_n : option nat;                         (* num_samples *)
  m_per : option nat;                       (* num_samples_per_cluster *)
  m_class : class_arg;                      (* class_index *)
  m_ev : option (tensor (option V));        (* evidence *)
  m_mpe : bool;                             (* is_mpe *)
  m_mpel : bool;                            (* mpe_at_leaves *)
  m_tsum : R;                               (* temperature_sums *)
  m_ms : option (list nat) }.               (* marginalized_scopes *)
(** mixture.py:116-214.  The weights may be fewer than the components, see Cluster.v. *)
Definition mix_sample (models : list (einet V)) (weights : list R)
    (predict : tensor (option V) -> option (list nat) -> list nat) (a : margs) : M V (tensor (option V)) :=
  _ <~ lift (assert (is_none (m_n a) || is_none (m_per a))) ;;
  let n := match m_ev a, m_n a, m_per a with
           | Some e, _, _ => hd 0 (shape e)
           | None, Some n, _ => n
           | None, None, Some m => m * length models
           | None, None, None => 1
           end in
  clusters <~ mix_clusters (length models) weights n (m_per a) (m_mpe a) ;;
  match m_ev a with
  | None => mix_sample_free models (fun k => mkArgs (Some k) (m_class a) None (m_mpe a) (m_mpel a) (m_tsum a) (m_ms a)) clusters
  | Some e => mix_sample_given models predict (fun d => mkArgs None CNone (Some d) (m_mpe a) false (m_tsum a) (m_ms a)) e (m_ms a)
  end.
(** mixture.py:216-229 *)
Definition mix_mpe (models : list (einet V)) (weights : list R)
    (predict : tensor (option V) -> option (list nat) -> list nat) (e : option (tensor (option V))) (ms : option (list nat)) :=
  mix_sample models weights predict (mkMArgs None None CNone e true false 1 ms).
End Mixture.
