(** Dropout in training mode: the loop that draws the mask.
    Sources: linsum.py:90-100, 286-295; sum.py:69-79; mixing.py:49-58.

    The Bernoulli distribution is an oracle: [coin k idx] is the outcome (true: dropped) at
    position [idx] of the k-th tensor drawn.  The [while] loop is given fuel; [None] means that
    it has not ended yet.  The float mask of zeros and ones is a tensor of booleans here. *)
From Coq Require Import List Arith Lia Bool Reals.
Import ListNotations.
From Verif Require Import Base RSum Num Tensor Layers.

(** [t.sum(d) == t.shape[d]] for a tensor of zeros and ones. *)
Definition count (n : nat) (f : nat -> bool) : nat := length (filter f (seq 0 n)).
Definition all_dropped (d : nat) (m : tensor bool) : tensor bool :=
  reduce (fun n f => count n f =? n) d m.
(** [mask.any()] *)
Definition tany (m : tensor bool) : bool := existsb (get m) (all_idx (shape m)).

(** [t[mask]] for a boolean mask: its sizes must be the leading sizes of [t]; the result has one
    row per true position, in row-major order. *)
Fixpoint leading (a b : list nat) : bool :=
  match a, b with
  | [], _ => true
  | x :: a', y :: b' => (x =? y) && leading a' b'
  | _ :: _, [] => false
  end.
Definition positions (mask : tensor bool) : list (list nat) := filter (get mask) (all_idx (shape mask)).
Fixpoint find_pos (p : list nat) (l : list (list nat)) : nat :=
  match l with [] => 0 | q :: l' => if eqb_list p q then 0 else S (find_pos p l') end.
Definition masked_shape {A} (t : tensor A) (mask : tensor bool) : res (list nat) :=
  if leading (shape mask) (shape t)
  then Ok (length (positions mask) :: skipn (dim mask) (shape t)) else Err IndexErr.
(** [t[mask] = src] *)
Definition masked_write {A} (t : tensor A) (mask : tensor bool) (src : tensor A) : tensor A :=
  mkT (shape t) (fun idx =>
    let p := firstn (dim mask) idx in
    if get mask p then get src (find_pos p (positions mask) :: skipn (dim mask) idx) else get t idx).

Section Drop.
Variable coin : nat -> list nat -> bool.

(** The loop; [d] is the axis summed over.  linsum.py:92-96, 288-292, sum.py:71-76, mixing.py:51-55 *)
Fixpoint drop_loop (d fuel k : nat) (m : tensor bool) : option (res (tensor bool)) :=
  let invalid := all_dropped d m in
  if tany invalid then
    match fuel with
    | O => None
    | S fuel' =>
        match masked_shape m invalid with
        | Err e => Some (Err e)
        | Ok s => drop_loop d fuel' (S k) (masked_write m invalid (mkT s (coin k)))
        end
    end
  else Some (Ok m).
Definition drop_mask (d fuel : nat) (s : list nat) : option (res (tensor bool)) :=
  drop_loop d fuel 1 (mkT s (coin 0)).

(** [if self.dropout > 0.0 and self.training:] *)
Definition with_dropout {A} (p : R) (training : bool) (d fuel : nat) (s : list nat)
    (fwd : option (tensor bool) -> res A) : option (res A) :=
  if (if Rlt_dec 0 p then training else false) then
    match drop_mask d fuel s with
    | None => None
    | Some (Err e) => Some (Err e)
    | Some (Ok m) => Some (fwd (Some m))
    end
  else Some (fwd None).

(** The forward passes; the mask has the shape of [prod_output] (linsum.py:91, 287) or of the
    input (sum.py:70, mixing.py:50). *)
Definition linsum_train (p : R) (training : bool) (fuel : nat) (L : slay) (x : tensor num) :=
  with_dropout p training 2 fuel (shape (unsqueeze 3 (slice_step 1 0 2 x))) (fun m => linsum_forward L m x).
Definition linsum2_train (p : R) (training : bool) (fuel : nat) (L : slay) (x : tensor num) :=
  with_dropout p training 2 fuel (set_nth 2 (sout L) (shape (slice_step 1 0 2 x))) (fun m => linsum2_forward L m x).
Definition sum_train (p : R) (training : bool) (fuel : nat) (L : slay) (x : tensor num) :=
  with_dropout p training 3 fuel (shape x) (fun m => sum_forward L m x).
Definition mixing_train (p : R) (training : bool) (fuel : nat) (L : slay) (x : tensor num) :=
  with_dropout p training 3 fuel (shape x) (fun m => mixing_forward L m x).
End Drop.
