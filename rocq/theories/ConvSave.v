(** Saving and loading a convolutional circuit: model.state_dict() and model.load_state_dict(...) on a ConvPc.
    Sources for the names: conv_pc.py:301-307 (logits), 453-459 (sum_layer), 536-544 (leaf_data), 624 (layers).

    The simplifications of Save.v.  ProdConv has neither parameters nor buffers (:384-392), and a SumProdLayer of an
    unknown order has no submodules (:452-459).  The input caches (:309-311, 390-392) are plain attributes: they are in no
    state dict and loading leaves them as they are. *)
From Coq Require Import List Arith Bool Reals String.
Import ListNotations.
From Verif Require Import Base Num Tensor Prob Leaf Einet ConvPc Save.
Local Open Scope string_scope.

(** [cm_par], [cm_x] as in Save.v; the leaf object inside [cm_net] is not used.  [cm_st]: the input caches. *)
Record cmodule (V X : Type) : Type := mkCM { cm_net : convpc V; cm_par : list (string * tensor num); cm_x : X; cm_st : cstate }.
Arguments mkCM {V X}. Arguments cm_net {V X}. Arguments cm_par {V X}. Arguments cm_x {V X}. Arguments cm_st {V X}.

Section Module.
Context {V X : Type}.

(** conv_pc.py:530-624 *)
Definition new_cmodule (g : cconfig) (C H W : nat) (o : coracle V) (par : list (string * tensor num)) (x : X) : res (cmodule V X) :=
  P <- build_convpc o g C H W ;; Ok (mkCM P par x (fresh_state P)).

Definition cnetwork (cls : leaf_class V X) (m : cmodule V X) : res (convpc V) :=
  lf <- cls (cm_par m) (cm_x m) ;;
  let P := cm_net m in Ok (mkCP (cp_C P) (cp_H P) (cp_W P) (cp_L P) lf (cp_layers P)).
Definition cmodule_forward (cls : leaf_class V X) (m : cmodule V X) (x : tensor (option V)) : res (tensor num) :=
  P <- cnetwork cls m ;; snd (conv_forward P (cm_st m) x).
Definition cmodule_sample (cls : leaf_class V X) (val : V -> R) (m : cmodule V X) (a : cargs) : M V (tensor num) :=
  P <~ lift (cnetwork cls m) ;; snd (conv_sample P val (cm_st m) a).

(** ** state_dict *)
Definition csum_entries (p : name) (s : csum) : dict := [((p ++ [Nm "logits"])%list, VNum (cs_logits s))].
Definition clay_entries (p : name) (l : clayer) : dict :=
  match l with
  | CSum s => csum_entries p s
  | CProd _ _ => []
  | CSumProd OOther _ _ _ => []
  | CSumProd _ s _ _ => csum_entries (p ++ [Nm "sum_layer"])%list s
  end.
Fixpoint clays_entries (i : nat) (ls : list clayer) : dict :=
  match ls with
  | [] => []
  | l :: ls' => (clay_entries [Nm "layers"; Ix i] l ++ clays_entries (S i) ls')%list
  end.
Definition conv_state_dict (m : cmodule V X) : dict :=
  (par_entries [Nm "leaf_data"] (cm_par m) ++ clays_entries 0 (cp_layers (cm_net m)))%list.

(** ** load_state_dict *)
Definition load_csum (d : dict) (p : name) (s : csum) : res csum :=
  t <- load_num d (p ++ [Nm "logits"])%list (cs_logits s) ;; Ok (mkCS (cs_in s) (cs_out s) (cs_h s) (cs_w s) t).
Definition load_clay (d : dict) (p : name) (l : clayer) : res clayer :=
  match l with
  | CSum s => s' <- load_csum d p s ;; Ok (CSum s')
  | CProd kh kw => Ok (CProd kh kw)
  | CSumProd OOther s kh kw => Ok (CSumProd OOther s kh kw)
  | CSumProd o s kh kw => s' <- load_csum d (p ++ [Nm "sum_layer"])%list s ;; Ok (CSumProd o s' kh kw)
  end.
Fixpoint load_clays (d : dict) (i : nat) (ls : list clayer) : res (list clayer) :=
  match ls with
  | [] => Ok []
  | l :: ls' => l' <- load_clay d [Nm "layers"; Ix i] l ;; r <- load_clays d (S i) ls' ;; Ok (l' :: r)
  end.
Definition conv_load_state_dict (d : dict) (m : cmodule V X) : res (cmodule V X) :=
  let P := cm_net m in
  _ <- no_unexpected d (conv_state_dict m) ;;
  par <- load_par d [Nm "leaf_data"] (cm_par m) ;;
  ls <- load_clays d 0 (cp_layers P) ;;
  Ok (mkCM (mkCP (cp_C P) (cp_H P) (cp_W P) (cp_L P) (cp_leaf P) ls) par (cm_x m) (cm_st m)).
End Module.
