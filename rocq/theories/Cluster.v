(** Initialization and cluster prediction of a mixture, simple_einet/mixture.py:43-77.

    Simplifications.  Data are real numbers through a map [val] (for counts: INR), a missing entry is
    NaN.  KMeans.fit_predict is external: an argument gives the predictions and the centroids.
    KMeans.max_sim with mode "euclidean" (fast_pytorch_kmeans) is external code and modelled from its
    documentation: the centroid with the largest 2ab - a^2 - b^2. *)
From Coq Require Import List Arith Lia Bool Reals.
Import ListNotations.
From Verif Require Import Base RSum Num Tensor Prob Layers Leaf TypeChecks Einet Build Mixture.

Section Predict.
Context {V : Type}.
Variable val : V -> R.

(** x.float() *)
Definition cell (o : option V) : num := match o with Some v => Fin (val v) | None => NaN end.
(** KMeans.euc_sim of one row and one centroid *)
Definition euc_sim (D : nat) (a : nat -> num) (b : nat -> R) : num :=
  nsub (nsub (nsum D (fun j => nmul (nmul (Fin 2) (a j)) (Fin (b j)))) (nsum D (fun j => nmul (a j) (a j))))
       (Fin (rsum D (fun j => b j * b j)%R)).
(** mixture.py:72, the features that are not marginalized; [nf]: self.num_features *)
Definition keep_idx (nf : nat) (s : list nat) : list nat := filter (fun i => negb (existsb (Nat.eqb i) s)) (seq 0 nf).
Definition idx_tensor (l : list nat) : tensor nat := mkT [length l] (fun idx => nth (nth 0 idx 0) l 0).
(** mixture.py:69-77 *)
Definition predict_cluster (nf : nat) (cents : tensor R) (x : tensor (option V)) (ms : option (list nat)) : res (list nat) :=
  x2 <- view_infer [size x 0] [] x ;;
  b <- match ms with Some s => index_dim 1 (idx_tensor (keep_idx nf s)) cents | None => Ok cents end ;;
  a <- match ms with Some s => index_dim 1 (idx_tensor (keep_idx nf s)) x2 | None => Ok x2 end ;;
  if size a 1 =? size b 1
  then Ok (map (fun n => nargmax (size b 0) (fun k => euc_sim (size b 1) (fun j => cell (get a [n; j])) (fun j => get b [k; j])))
               (seq 0 (size a 0)))
  else Err RuntimeErr.

(** mixture.py:90-114 with the cluster of mixture.py:80 *)
Definition mixture_forward (nf : nat) (cents : tensor R) (models : list (einet V)) (x : tensor (option V)) (ms : option (list nat)) : res (tensor num) :=
  cs <- predict_cluster nf cents x ms ;; mix_forward models (fun _ _ => cs) x ms.
(** mixture.py:116-214 with the cluster of mixture.py:80 *)
Definition mixture_sample (nf : nat) (cents : tensor R) (models : list (einet V)) (weights : list R) (a : margs) : M V (tensor (option V)) :=
  match m_ev a with
  | Some e =>
      match predict_cluster nf cents e (m_ms a) with
      | Ok cs => mix_sample models weights (fun _ _ => cs) a
      | Err er => _ <~ lift (assert (is_none (m_n a) || is_none (m_per a))) ;; Fail er
      end
  | None => mix_sample models weights (fun _ _ => []) a
  end.
End Predict.

(** ** initialize *)
(** torch.bincount: one count for every value up to the largest one *)
Definition bincount (preds : list nat) : list nat :=
  map (fun k => count_occ Nat.eq_dec preds k) (seq 0 (match preds with [] => 0 | _ => S (list_max preds) end)).
(** mixture.py:60-61 *)
Definition init_weights (preds : list nat) : list R :=
  let counts := bincount preds in map (fun c => (INR c / INR (list_sum counts))%R) counts.
(** mixture.py:63-67; [total_count] is given when the leaves are Binomial *)
Definition init_centroids (total_count : option nat) (cents : tensor R) : tensor R :=
  match total_count with Some t => tmap (fun c => c * INR t)%R cents | None => cents end.
(** mixture.py:49-54: the batches of a dataloader that are used; [limit] is 30000, [seen] the rows so far *)
Fixpoint collect {A} (limit seen : nat) (batches : list (list A)) : list (list A) :=
  match batches with
  | [] => []
  | b :: bs => b :: (if limit <? seen + length b then [] else collect limit (seen + length b) bs)
  end.
(** mixture.py:44-67.  A row of data is a list of numbers; [fit] is KMeans.fit_predict.  torch.cat of no
    batch raises. *)
Definition initialize (limit : nat) (total_count : option nat) (fit : list (list R) -> list nat * tensor R)
    (data : option (list (list R))) (loader : option (list (list (list R)))) : res (list R * tensor R) :=
  rows <- match data, loader with
          | Some d, None => Ok d
          | None, Some bs => match bs with [] => Err RuntimeErr | _ => Ok (concat (collect limit 0 bs)) end
          | _, _ => Err AssertionError
          end ;;
  let '(preds, cents) := fit rows in
  Ok (init_weights preds, init_centroids total_count cents).
