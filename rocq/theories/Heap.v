(** In-place writes.  Tensors are references into a heap; views share the cell of their base; an
    assignment through a reference changes the cell.  Modelled are the calls that write in place:
    abstract_leaf.py:236-293 (leaf forward), einet.py:121-204 (forward with permutation and leaf cache)
    and the end of Einet.sample, einet.py:684-695.  All other operations return new tensors. *)
From Coq Require Import List Arith Lia Bool Reals.
Import ListNotations.
From Verif Require Import Base RSum Num Tensor Prob Layers Leaf Einet.

(** A reference: the cell, and for a view the index map into it and back. *)
Record ref : Type := mkRef {
  r_loc : nat; r_shape : list nat;
  r_map : list nat -> list nat;      (* index of the view -> index of the cell *)
  r_inv : list nat -> list nat }.    (* index of the cell -> index of the view *)
Definition ref_of {A} (l : nat) (t : tensor A) : ref := mkRef l (shape t) (fun i => i) (fun j => j).
Definition ref_unsqueeze (d : nat) (r : ref) : ref :=
  mkRef (r_loc r) (insert_nth d 1 (r_shape r)) (fun i => r_map r (remove_nth d i)) (fun j => insert_nth d 0 (r_inv r j)).
Definition ref_view (s : list nat) (r : ref) : res ref :=
  if numel s =? numel (r_shape r)
  then Ok (mkRef (r_loc r) s (fun i => r_map r (unravel (r_shape r) (ravel s i)))
                 (fun j => unravel s (ravel (r_shape r) (r_inv r j))))
  else Err RuntimeErr.
Definition ref_view_infer (pre post : list nat) (r : ref) : res ref :=
  let p := numel pre * numel post in
  if p =? 0 then Err RuntimeErr else ref_view (pre ++ [numel (r_shape r) / p] ++ post) r.

Section Heap.
Context {V : Type}.
(** Two regions: data tensors (entries may be missing) and float tensors. *)
Record heap : Type := mkHeap { h_data : list (tensor (option V)); h_num : list (tensor num) }.
Definition no_data : tensor (option V) := mkT [] (fun _ => None).
Definition no_num : tensor num := mkT [] (fun _ => NaN).
Definition read_data (h : heap) (r : ref) : tensor (option V) :=
  mkT (r_shape r) (fun i => get (nth (r_loc r) (h_data h) no_data) (r_map r i)).
Definition read_num (h : heap) (r : ref) : tensor num :=
  mkT (r_shape r) (fun i => get (nth (r_loc r) (h_num h) no_num) (r_map r i)).
Definition new_data (h : heap) (t : tensor (option V)) : heap * ref :=
  (mkHeap (h_data h ++ [t]) (h_num h), ref_of (length (h_data h)) t).
Definition new_num (h : heap) (t : tensor num) : heap * ref :=
  (mkHeap (h_data h) (h_num h ++ [t]), ref_of (length (h_num h)) t).
(** t[...] = ... through a reference: entry [i] of the view becomes [v] where [upd i = Some v]. *)
Definition written {A} (t : tensor A) (r : ref) (upd : list nat -> option A) : tensor A :=
  mkT (shape t) (fun j => match upd (r_inv r j) with Some v => v | None => get t j end).
Definition write_data (h : heap) (r : ref) (upd : list nat -> option (option V)) : heap :=
  mkHeap (set_nth (r_loc r) (written (nth (r_loc r) (h_data h) no_data) r upd) (h_data h)) (h_num h).
Definition write_num (h : heap) (r : ref) (upd : list nat -> option num) : heap :=
  mkHeap (h_data h) (set_nth (r_loc r) (written (nth (r_loc r) (h_num h) no_num) r upd) (h_num h)).

(** abstract_leaf.py:236-264, in place *)
Definition hp_marginalize (h : heap) (x : ref) (ms : option (list nat)) : heap * res ref :=
  match ms with
  | Some s =>
      match guard (forallb (fun f => f <? nth 2 (r_shape x) 0) s) IndexErr with
      | Err e => (h, Err e)
      | Ok _ => (write_num h x (fun i => if existsb (Nat.eqb (nth 2 i 0)) s then Some (Fin 0%R) else None), Ok x)
      end
  | None => (write_num h x (fun i => if isnan (get (read_num h x) i) then Some (Fin 0%R) else None), Ok x)
  end.
(** abstract_leaf.py:266-293 *)
Definition hp_base_forward (lf : bleaf V) (h : heap) (x : ref) (ms : option (list nat)) : heap * res ref :=
  let xc := read_data h x in
  let has_nan := existsb (fun idx => is_nan (get xc idx)) (all_idx (shape xc)) in
  (* torch.where returns a new tensor; without NaN x itself is used *)
  let '(h, x) := if has_nan then new_data h (tmap (fun o => Some (match o with Some v => v | None => lf_zero lf end)) xc) else (h, x) in
  match dist_forward lf (tmap (fun o => match o with Some v => v | None => lf_zero lf end) (read_data h x)) with
  | Err e => (h, Err e)
  | Ok y =>
      let '(h, y) := new_num h y in
      if has_nan then
        match guard (eqb_list (firstn (dim xc) (r_shape y)) (shape xc)) IndexErr with
        | Err e => (h, Err e)
        | Ok _ => hp_marginalize (write_num h y (fun i => if is_nan (get xc (firstn (dim xc) i)) then Some NaN else None)) y ms
        end
      else hp_marginalize h y ms
  end.
(** einet.py:134-146: views of the input *)
Definition hp_prepare (E : einet V) (x : ref) : res ref :=
  let x := if length (r_shape x) =? 2 then ref_unsqueeze 1 x else x in
  x <- (if length (r_shape x) =? 4 then ref_view_infer [nth 0 (r_shape x) 0; e_C E] [] x else Ok x) ;;
  _ <- assert (length (r_shape x) =? 3) ;;
  _ <- assert (nth 1 (r_shape x) 0 =? e_C E) ;;
  _ <- assert (nth 2 (r_shape x) 0 =? e_F E) ;;
  Ok x.
(** einet.py:177-180: x[:, :, :, i] = x[:, permutation[i], :, i] *)
Definition hp_permute_rep (h : heap) (perm : tensor nat) (i : nat) (x : ref) : heap * res ref :=
  match row <- select 0 i perm ;;
        xi <- select 3 i (read_num h x) ;;
        y <- index_dim 1 row xi ;;
        _ <- guard (eqb_list (shape y) (shape xi)) RuntimeErr ;; Ok y with
  | Err e => (h, Err e)
  | Ok y => (write_num h x (fun idx => if nth 3 idx 0 =? i then Some (get y (remove_nth 3 idx)) else None), Ok x)
  end.
Fixpoint hp_permute (h : heap) (perm : tensor nat) (R : nat) (x : ref) : heap * res ref :=
  match R with
  | O => (h, Ok x)
  | S i => match hp_permute h perm i x with (h', Ok x') => hp_permute_rep h' perm i x' | (h', Err e) => (h', Err e) end
  end.
(** The leaf layer: the base leaf, then new tensors. *)
Definition hp_leaf (l : leaf_layer V) (h : heap) (x : ref) (ms : option (list nat)) : heap * res ref :=
  match hp_base_forward (leaf_of l) h x ms with
  | (h, Err e) => (h, Err e)
  | (h, Ok y) =>
      match match l with
            | LFact lf Fo sc => Some (fact_forward lf Fo sc (read_num h y))
            | LSimple lf Fo perm _ => Some (simple_forward lf Fo (vec perm) (read_num h y))
            | LBase _ => None
            end with
      | None => (h, Ok y)
      | Some (Err e) => (h, Err e)
      | Some (Ok z) => let '(h, z) := new_num h z in (h, Ok z)
      end
  end.
(** Einet.forward, einet.py:121-204.  [hit]: the cell found in the leaf cache.  Returns the reference of the
    leaf output, which the caller stores in the cache, and the result. *)
Definition hp_forward (E : einet V) (h : heap) (x : ref) (ms : option (list nat)) (hit : option ref)
  : heap * res (ref * tensor num) :=
  match hp_prepare E x with
  | Err e => (h, Err e)
  | Ok x =>
      match match hit with Some y => (h, Ok y) | None => hp_leaf (e_leaf E) h x ms end with
      | (h, Err e) => (h, Err e)
      | (h, Ok y) =>
          match merge_channels E (read_num h y) with
          | Err e => (h, Err e)
          | Ok z =>
              (* x.sum(dim=1) is new; a factorized leaf's output is used as it is *)
              let '(h, z) := match e_leaf E with LBase _ => new_num h z | _ => (h, y) end in
              match match e_perm E with
                    | None => (h, Ok z)
                    | Some (p, _) => hp_permute h (buffer (e_R E) (e_F E) p) (e_R E) z
                    end with
              | (h, Err e) => (h, Err e)
              | (h, Ok z) =>
                  (h, '(t, _) <- forward_upper (mkE (e_F E) (e_C E) (e_L E) (e_R E) (e_K E) (e_leaf E) None (e_layers E) (e_mixing E) (e_root E)) (read_num h z) ;;
                      Ok (y, t))
              end
          end
      end
  end.
(** evidence.clone().float(), einet.py:685.  [f32]: the evidence already has dtype float32, so that .float()
    returns the tensor it is given. *)
Definition hp_copy (h : heap) (c : tensor (option V)) (f32 : bool) : heap * ref :=
  let '(h, e) := new_data h c in
  if f32 then (h, e) else new_data h c.
(** The end of Einet.sample, einet.py:684-695. *)
Definition hp_merge (h : heap) (ev : ref) (ms : option (list nat)) (s : tensor V) (f32 : bool) : heap * res ref :=
  let c := read_data h ev in
  let '(h, e) := hp_copy h c f32 in
  match ref_view (shape s) e with
  | Err x => (h, Err x)
  | Ok w =>
      match ms with
      | None =>
          let h := write_data h w (fun i => match get (read_data h w) i with None => Some (Some (get s i)) | Some _ => None end) in
          (h, ref_view (r_shape ev) w)
      | Some m =>
          match guard (forallb (fun f => f <? nth 2 (r_shape w) 0) m) IndexErr with
          | Err x => (h, Err x)
          | Ok _ =>
              let h := write_data h w (fun i => if existsb (Nat.eqb (nth 2 i 0)) m then Some (Some (get s i)) else None) in
              (h, ref_view (r_shape ev) w)
          end
      end
  end.
End Heap.
