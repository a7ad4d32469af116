(** Einet as an object with state: the leaf cache, the input caches of the sum layers, and the global
    random number generator.  Sources: einet.py:112-204 (leaf cache), abstract_layers.py:136-149 and
    191-206 (input caches), sampling_utils.py:14-70 (sampling_context), einet.py:533-697 (sample).

    Evaluation mode, as in [Einet.v].  Enabling and disabling run over all modules, so one flag stands
    for the flags of all layers.  The generator is abstract: a state, a seeding function and one draw. *)
From Coq Require Import List Arith Lia Bool ZArith Reals.
Import ListNotations.
From Verif Require Import Base RSum Num Tensor Prob Layers Leaf Einet.

Section State.
Context {V G : Type}.
Variable manual_seed : Z -> G.                             (* torch.manual_seed *)
Variable draw_index : G -> list num -> nat * G.            (* one categorical draw *)
Variable draw_leaf : leaf_layer V -> G -> list nat -> V * G.  (* one draw of a leaf component *)

(** Run a sampling program with a generator. *)
Fixpoint run {A} (lf : leaf_layer V) (m : M V A) (g : G) : res A * G :=
  match m with
  | Ret a => (Ok a, g)
  | Fail e => (Err e, g)
  | Cat w k => let '(i, g') := draw_index g w in run lf (k i) g'
  | LeafD key k => let '(v, g') := draw_leaf lf g key in run lf (k v) g'
  end.

(** The object. [o_leaf]: einet.py:113; [o_on], [o_ins], [o_mix]: abstract_layers.py:137-138. *)
Record obj : Type := mkObj {
  o_net : einet V;
  o_leaf : list (nat * tensor num);
  o_on : bool;
  o_ins : list (option cache);
  o_mix : option cache }.
Definition fresh (E : einet V) : obj := mkObj E [] false (map (fun _ => None) (e_layers E)) None.

(** What a layer has put into its cache when its forward pass raises: LinsumLayer2, SumLayer and
    MixingLayer store their input first, the others last. *)
Definition stored_early (l : layer) (x : tensor num) (old : option cache) : option cache :=
  match l with LLin2 _ | LSum _ => Some (CIn x) | _ => old end.
(** einet.py:206-219 with caches; the second argument are the current caches. *)
Fixpoint st_layers (on : bool) (ls : list layer) (cs : list (option cache)) (x : tensor num)
  : list (option cache) * res (tensor num) :=
  match ls with
  | [] => ([], Ok x)
  | l :: ls' =>
      let old := hd None cs in
      match layer_forward l x with
      | Ok (y, c) => let '(cs', r) := st_layers on ls' (tl cs) y in ((if on then c else old) :: cs', r)
      | Err e => ((if on then stored_early l x old else old) :: tl cs, Err e)
      end
  end.
(** einet.py:190-204 *)
Definition st_top (on : bool) (E : einet V) (old : option cache) (x : tensor num) : option cache * res (tensor num) :=
  match size4 x with
  | Err e => (old, Err e)
  | Ok (batch, features, channels, _) =>
      match assert (features =? 1), assert (channels =? e_K E) with
      | Ok _, Ok _ =>
          let '(cm, r) :=
            if 1 <? e_R E then
              match attr (e_mixing E) with
              | Err e => (old, Err e)
              | Ok m =>
                  (if on then Some (CIn x) else old, '(y, _) <- mixing_forward m None x ;; Ok y)
              end
            else (old, Ok (squeeze 3 x)) in
          (cm, y <- r ;; let y := squeeze 1 y in
               _ <- assert (eqb_list (shape y) [batch; e_K E]) ;; Ok y)
      | Err e, _ | _, Err e => (old, Err e)
      end
  end.
Fixpoint lookup (i : nat) (l : list (nat * tensor num)) : option (tensor num) :=
  match l with [] => None | (j, y) :: l' => if i =? j then Some y else lookup i l' end.
(** Einet.forward, einet.py:121-204 *)
Definition st_forward (o : obj) (x : tensor (option V)) (ms : option (list nat)) (ci : option nat) : obj * res (tensor num) :=
  let E := o_net o in
  match prepare E x with
  | Err e => (o, Err e)
  | Ok x =>
      let '(leafs, ry) :=
        match match ci with Some i => lookup i (o_leaf o) | None => None end with
        | Some y => (o_leaf o, Ok y)
        | None =>
            match leaf_forward (e_leaf E) x ms with
            | Ok y => (match ci with Some i => (i, y) :: o_leaf o | None => o_leaf o end, Ok y)
            | Err e => (o_leaf o, Err e)
            end
        end in
      match y <- ry ;; y <- merge_channels E y ;;
            match e_perm E with None => Ok y | Some (p, _) => permute_reps (buffer (e_R E) (e_F E) p) (e_R E) y end with
      | Err e => (mkObj E leafs (o_on o) (o_ins o) (o_mix o), Err e)
      | Ok y =>
          match st_layers (o_on o) (e_layers E) (o_ins o) y with
          | (cs, Err e) => (mkObj E leafs (o_on o) cs (o_mix o), Err e)
          | (cs, Ok y) =>
              let '(cm, r) := st_top (o_on o) E (o_mix o) y in
              (mkObj E leafs (o_on o) cs cm, r)
          end
      end
  end.

(** The caches that the layers use when sampling: abstract_layers.py:199-200. *)
Definition used_caches (o : obj) : caches :=
  if o_on o then mkCaches (o_ins o) (o_mix o) else no_caches (o_net o).
(** sampling_utils.py:49-56 *)
Definition enter (o : obj) (a : sargs) : obj * res unit :=
  match a_ev a with
  | None => (o, Ok tt)
  | Some e =>
      let '(o', r) := st_forward (mkObj (o_net o) (o_leaf o) true (o_ins o) (o_mix o)) e (a_ms a) None in
      (o', _ <- r ;; Ok tt)
  end.
(** sampling_utils.py:61-65 *)
Definition leave (o : obj) (a : @sargs V) : obj :=
  match a_ev a with
  | None => o
  | Some _ => mkObj (o_net o) (o_leaf o) false (map (fun _ => None) (o_ins o)) None
  end.
(** The body of the with statement, einet.py:613-697. *)
Definition body (E : einet V) (a : sargs) (cs : caches) : M V (tensor (option V)) :=
  c <~ (nc <~ class_step E a (init_ctx a) ;;
        c <~ mixing_step E cs (fst nc) (snd nc) ;;
        c <~ sample_layers (combine (e_layers E) (ca_layers cs)) c ;;
        lift (unpermute E c)) ;;
  s <~ leaf_sample (e_leaf E) c (a_mpe a || a_mpel a) ;;
  match a_ev a with
  | None => Ret (tmap Some s)
  | Some e => lift (merge_evidence e (a_ms a) s)
  end.
(** Einet.sample: an exception skips everything after the [yield] in sampling_context. *)
Definition st_sample (o : obj) (g : G) (a : sargs) (seed : option Z) : (obj * G) * res (tensor (option V)) :=
  match check_args (o_net o) a with
  | Err e => ((o, g), Err e)
  | Ok _ =>
      let g1 := match seed with Some s => manual_seed s | None => g end in
      match enter o a with
      | (o1, Err e) => ((o1, g1), Err e)
      | (o1, Ok _) =>
          match run (e_leaf (o_net o1)) (body (o_net o1) a (used_caches o1)) g1 with
          | (Err e, g2) => ((o1, g2), Err e)
          | (Ok t, g2) => ((leave o1 a, match seed with Some _ => g | None => g2 end), Ok t)
          end
      end
  end.

(** Calls a program can make on the object, and what they return. *)
Inductive call : Type :=
| Forward (x : tensor (option V)) (ms : option (list nat)) (ci : option nat)
| Sample (a : @sargs V) (seed : option Z)
| ResetCache                                            (* einet.py:115-117 *)
| Update (E : einet V).                                 (* new parameter values *)
Inductive reply : Type :=
| RForward (r : res (tensor num)) | RSample (r : res (tensor (option V))) | RUnit.
Definition exec (s : obj * G) (c : call) : (obj * G) * reply :=
  let '(o, g) := s in
  match c with
  | Forward x ms ci => let '(o', r) := st_forward o x ms ci in ((o', g), RForward r)
  | Sample a seed => let '(s', r) := st_sample o g a seed in (s', RSample r)
  | ResetCache => ((mkObj (o_net o) [] (o_on o) (o_ins o) (o_mix o), g), RUnit)
  | Update E => ((mkObj E (o_leaf o) (o_on o) (o_ins o) (o_mix o), g), RUnit)
  end.
Fixpoint history (s : obj * G) (cs : list call) : (obj * G) * list reply :=
  match cs with
  | [] => (s, [])
  | c :: cs' => let '(s1, r) := exec s c in let '(s2, rs) := history s1 cs' in (s2, r :: rs)
  end.
End State.
