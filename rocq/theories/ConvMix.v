(** Mixtures of convolutional circuits, simple_einet/mixture.py with a ConvPcConfig.

    Simplifications.  As in Mixture.v: the cluster of a row is an argument ([predict]), the mixture weights are real
    numbers, the seed and the leaf temperature are not modelled.  Every component has the caches of ConvPc.v; a state
    lists those of all components. *)
From Coq Require Import List Arith Bool Reals.
Import ListNotations.
From Verif Require Import Base Num Tensor Prob Layers Leaf TypeChecks Einet Build Mixture ConvPc.

(** The caches of component [c] replaced. *)
Fixpoint put {A} (c : nat) (s : A) (l : list A) : list A :=
  match l, c with
  | [], _ => []
  | _ :: l, 0 => s :: l
  | a :: l, S c => a :: put c s l
  end.

Section ConvMix.
Context {V : Type}.
(** mixture.py:18-43 for a ConvPcConfig; [shp]: channels, height and width of data_shape (:31) *)
Definition conv_mixture_build (n_components : pyval) (g : cconfig) (shp : option (nat * nat * nat)) (os : list (coracle V)) : res (list (convpc V)) :=
  _ <- check_int n_components 1 ;;
  match shp with
  | None => Err AssertionError
  | Some (C, H, W) => mapM (fun o => build_convpc o g C H W) (firstn (nval n_components) os)
  end.
(** self.models[cluster_idx] *)
Definition conv_component (models : list (convpc V)) (c : nat) : res (convpc V) :=
  match nth_error models c with Some P => Ok P | None => Err IndexErr end.
Definition state_of (P : convpc V) (sts : list cstate) (c : nat) : cstate := nth c sts (fresh_state P).

(** mixture.py:95-103: the loop over the clusters *)
Fixpoint cm_parts (models : list (convpc V)) (x : tensor (option V)) (groups : list (nat * list nat)) (sts : list cstate)
    : list cstate * res (list (list (nat * tensor num))) :=
  match groups with
  | [] => (sts, Ok [])
  | (c, idxs) :: groups =>
      match (data <- stack (map (trow x) idxs) ;; P <- conv_component models c ;; Ok (data, P)) with
      | Err e => (sts, Err e)
      | Ok (data, P) =>
          let '(st, lls) := conv_forward P (state_of P sts c) data in
          match lls with
          | Err e => (put c st sts, Err e)
          | Ok lls =>
              let '(sts, parts) := cm_parts models x groups (put c st sts) in
              (sts, parts <- parts ;; Ok (combine idxs (unstack lls) :: parts))
          end
      end
  end.
(** mixture.py:88-114 *)
Definition cm_forward (models : list (convpc V)) (predict : tensor (option V) -> option (list nat) -> list nat)
    (sts : list cstate) (x : tensor (option V)) (ms : option (list nat)) : list cstate * res (tensor num) :=
  let '(sts, parts) := cm_parts models x (separate 0 (predict x ms) []) sts in
  (sts, parts <- parts ;;
        let all := concat parts in
        perm <- permutation_of (map fst all) ;;
        lls <- stack (map snd all) ;;
        permuted perm lls).

Variable val : V -> R.
(** mixture.py:152-182 without evidence; ConvPc.sample then leaves the caches as they are. *)
Definition cm_sample_free (models : list (convpc V)) (sts : list cstate) (a : nat -> cargs) (clusters : list nat) : M V (tensor num) :=
  parts <~ draws (map (fun '(c, idxs) =>
    P <~ lift (conv_component models c) ;;
    tag c (snd (conv_sample P val (state_of P sts c) (a (length idxs))))) (separate 0 clusters [])) ;;
  lift (
    _ <- cat_rows parts ;;
    perm <- permutation_of clusters ;;
    all <- cat_rows parts ;;
    permuted perm all).
(** mixture.py:184-212 with evidence.  ConvPc.sample raises for every evidence (ConvPc.v), so that the loop ends in its
    first round; without a round, unpacking the empty zip raises ValueError (:207). *)
Definition cm_sample_given (models : list (convpc V)) (predict : tensor (option V) -> option (list nat) -> list nat)
    (sts : list cstate) (mpe : bool) (T : R) (e : tensor (option V)) (ms : option (list nat)) : list cstate * M V (tensor num) :=
  match separate 0 (predict e ms) [] with
  | [] => (sts, Fail ValueErr)
  | (c, idxs) :: _ =>
      match (data <- stack (map (trow e) idxs) ;; P <- conv_component models c ;; Ok (data, P)) with
      | Err er => (sts, Fail er)
      | Ok (data, P) =>
          let '(st, m) := conv_sample P val (state_of P sts c) (mkCA None (Some data) mpe false false T) in
          (put c st sts, tag c m)
      end
  end.
(** mixture.py:116-214.  ConvPc.sample does not read class_index and marginalized_scopes (conv_pc.py:658-735). *)
Definition cm_sample (models : list (convpc V)) (weights : list R)
    (predict : tensor (option V) -> option (list nat) -> list nat) (sts : list cstate) (a : margs (V := V)) : list cstate * M V (tensor num) :=
  if negb (is_none (m_n a) || is_none (m_per a)) then (sts, Fail AssertionError) else
  let n := match m_ev a, m_n a, m_per a with
           | Some e, _, _ => hd 0 (shape e)
           | None, Some n, _ => n
           | None, None, Some m => m * length models
           | None, None, None => 1
           end in
  let drawn := mix_clusters (length models) weights n (m_per a) (m_mpe a) in
  match m_ev a with
  | None => (sts, clusters <~ drawn ;; cm_sample_free models sts (fun k => mkCA (Some k) None (m_mpe a) (m_mpel a) false (m_tsum a)) clusters)
  | Some e =>
      let '(sts, m) := cm_sample_given models predict sts (m_mpe a) (m_tsum a) e (m_ms a) in
      (sts, _ <~ drawn ;; m)
  end.
(** mixture.py:216-229 *)
Definition cm_mpe (models : list (convpc V)) (weights : list R)
    (predict : tensor (option V) -> option (list nat) -> list nat) (sts : list cstate) (e : option (tensor (option V))) (ms : option (list nat)) :=
  cm_sample models weights predict sts (mkMArgs None None CNone e true false 1 ms).
End ConvMix.
