(** A small model of PyTorch tensors.

    A tensor is a shape and a total function on index lists; only indices inside the shape are
    meaningful.  Each operation follows the documented shape rule of its PyTorch counterpart and
    returns [Err] where PyTorch raises.  Dimensions are given as non-negative numbers; a negative
    dimension in the source is translated at the call site.  Memory layout is not modelled, so
    [view] and [reshape] coincide. *)
From Coq Require Import List Arith Lia Bool Reals.
Import ListNotations.
From Verif Require Import Base RSum Num.

Record tensor (A : Type) : Type := mkT { shape : list nat; get : list nat -> A }.
Arguments mkT {A} _ _.
Arguments shape {A} _.
Arguments get {A} _ _.

Fixpoint numel (s : list nat) : nat :=
  match s with [] => 1 | d :: s' => d * numel s' end.

(** [inb s idx]: [idx] is a valid index into shape [s]. *)
Fixpoint inb (s idx : list nat) : Prop :=
  match s, idx with
  | [], [] => True
  | d :: s', i :: idx' => i < d /\ inb s' idx'
  | _, _ => False
  end.

(** All valid indices, in row-major order. *)
Fixpoint all_idx (s : list nat) : list (list nat) :=
  match s with
  | [] => [[]]
  | d :: s' => flat_map (fun i => map (cons i) (all_idx s')) (seq 0 d)
  end.

Fixpoint ravel (s idx : list nat) : nat :=
  match s, idx with
  | _ :: s', i :: idx' => i * numel s' + ravel s' idx'
  | _, _ => 0
  end.
Fixpoint unravel (s : list nat) (m : nat) : list nat :=
  match s with
  | [] => []
  | _ :: s' => (m / numel s') :: unravel s' (m mod numel s')
  end.

Definition dim {A} (t : tensor A) : nat := length (shape t).
Definition size {A} (t : tensor A) (d : nat) : nat := nth d (shape t) 0.

(** Tuple unpacking of [t.shape]: raises if the rank differs. *)
Definition size3 {A} (t : tensor A) : res (nat * nat * nat) :=
  match shape t with [a; b; c] => Ok (a, b, c) | _ => Err ValueErr end.
Definition size4 {A} (t : tensor A) : res (nat * nat * nat * nat) :=
  match shape t with [a; b; c; d] => Ok (a, b, c, d) | _ => Err ValueErr end.

Section Ops.
Context {A : Type}.

Definition full (s : list nat) (v : A) : tensor A := mkT s (fun _ => v).
Definition tmap {B} (f : A -> B) (t : tensor A) : tensor B := mkT (shape t) (fun i => f (get t i)).

Definition unsqueeze (d : nat) (t : tensor A) : tensor A :=
  mkT (insert_nth d 1 (shape t)) (fun idx => get t (remove_nth d idx)).
Definition squeeze (d : nat) (t : tensor A) : tensor A :=
  if size t d =? 1 then mkT (remove_nth d (shape t)) (fun idx => get t (insert_nth d 0 idx)) else t.

(** x[:, ..., start::step, ...] *)
Definition slice_step (d start step : nat) (t : tensor A) : tensor A :=
  mkT (set_nth d ((size t d - start + (step - 1)) / step) (shape t))
      (fun idx => get t (set_nth d (start + step * nth d idx 0) idx)).
(** x[:, ..., :n, ...] *)
Definition take (d n : nat) (t : tensor A) : tensor A :=
  mkT (set_nth d (Nat.min n (size t d)) (shape t)) (get t).
(** x[:, ..., i, ...] for an integer [i]. *)
Definition select (d i : nat) (t : tensor A) : res (tensor A) :=
  if i <? size t d then Ok (mkT (remove_nth d (shape t)) (fun idx => get t (insert_nth d i idx)))
  else Err IndexErr.

(** torch.cat((a, b), dim=d) *)
Definition cat2 (d : nat) (a b : tensor A) : res (tensor A) :=
  if eqb_list (set_nth d 0 (shape a)) (set_nth d 0 (shape b)) then
    Ok (mkT (set_nth d (size a d + size b d) (shape a))
            (fun idx => let i := nth d idx 0 in
                        if i <? size a d then get a idx else get b (set_nth d (i - size a d) idx)))
  else Err RuntimeErr.

(** torch.stack([t_0, ..., t_k], dim=d) for tensors of one shape. *)
Definition stack2 (d : nat) (a b : tensor A) : res (tensor A) :=
  if eqb_list (shape a) (shape b) then
    Ok (mkT (insert_nth d 2 (shape a))
            (fun idx => if nth d idx 0 =? 0 then get a (remove_nth d idx) else get b (remove_nth d idx)))
  else Err RuntimeErr.

Definition clamp (d i : nat) : nat := if d =? 1 then 0 else i.
Fixpoint bidx (s idx : list nat) : list nat :=
  match s, idx with
  | d :: s', i :: idx' => clamp d i :: bidx s' idx'
  | _, _ => []
  end.
Definition bproj (s idx : list nat) : list nat := bidx s (skipn (length idx - length s) idx).

(** t.expand(s) for a shape [s] of the same rank. *)
Fixpoint expandable (s s' : list nat) : bool :=
  match s, s' with
  | [], [] => true
  | d :: s1, d' :: s1' => ((d =? d') || (d =? 1)) && expandable s1 s1'
  | _, _ => false
  end.
Definition expand (s : list nat) (t : tensor A) : res (tensor A) :=
  if expandable (shape t) s then Ok (mkT s (fun idx => get t (bproj (shape t) idx))) else Err RuntimeErr.

(** t.view(s) / t.reshape(s) *)
Definition view (s : list nat) (t : tensor A) : res (tensor A) :=
  if numel s =? numel (shape t)
  then Ok (mkT s (fun idx => get t (unravel (shape t) (ravel s idx))))
  else Err RuntimeErr.
(** t.view(pre..., -1, post...) *)
Definition view_infer (pre post : list nat) (t : tensor A) : res (tensor A) :=
  let p := numel pre * numel post in
  if p =? 0 then Err RuntimeErr else view (pre ++ [numel (shape t) / p] ++ post) t.

(** t.permute(dims) *)
Definition permute (dims : list nat) (t : tensor A) : tensor A :=
  mkT (map (size t) dims)
      (fun idx => get t (map (fun d => nth d (map (fun k => nth k idx 0)
         (map (fun d' => (fix pos (l : list nat) (k : nat) := match l with
             | [] => 0 | x :: l' => if x =? d' then k else pos l' (S k) end) dims 0)
           (seq 0 (length dims)))) 0) (seq 0 (length dims)))).

(** t.repeat(r) for a list [r] of the same rank: tiling. *)
Fixpoint map2 {X Y Z} (f : X -> Y -> Z) (l : list X) (m : list Y) : list Z :=
  match l, m with x :: l', y :: m' => f x y :: map2 f l' m' | _, _ => [] end.
Definition repeat_t (r : list nat) (t : tensor A) : res (tensor A) :=
  if length r =? length (shape t)
  then Ok (mkT (map2 Nat.mul r (shape t)) (fun idx => get t (map2 Nat.modulo idx (shape t))))
  else Err RuntimeErr.
(** t.repeat_interleave(k, dim=d) *)
Definition repeat_interleave (d k : nat) (t : tensor A) : tensor A :=
  mkT (set_nth d (size t d * k) (shape t)) (fun idx => get t (set_nth d (nth d idx 0 / k) idx)).

(** t.gather(dim=d, index): ranks agree, index sizes do not exceed the input's except at [d],
    and every index entry is in range. *)
Fixpoint gather_fits (d : nat) (s si : list nat) : bool :=
  match s, si with
  | [], [] => true
  | a :: s', b :: si' =>
      (match d with O => true | _ => b <=? a end) &&
      (match d with O => forallb (fun p => snd p <=? fst p) (combine s' si') && (length s' =? length si')
       | S d' => gather_fits d' s' si' end)
  | _, _ => false
  end.
Definition gather (d : nat) (index : tensor nat) (t : tensor A) : res (tensor A) :=
  if gather_fits d (shape t) (shape index) &&
     forallb (fun idx => get index idx <? size t d) (all_idx (shape index))
  then Ok (mkT (shape index) (fun idx => get t (set_nth d (get index idx) idx)))
  else Err RuntimeErr.

(** x[:, ..., p, ...] for a vector of positions [p]. *)
Definition index_dim (d : nat) (p : tensor nat) (t : tensor A) : res (tensor A) :=
  match shape p with
  | [n] =>
      if forallb (fun i => get p [i] <? size t d) (seq 0 n)
      then Ok (mkT (set_nth d n (shape t)) (fun idx => get t (set_nth d (get p [nth d idx 0]) idx)))
      else Err IndexErr
  | _ => Err IndexErr
  end.
End Ops.

(** Broadcasting binary operation. *)
Definition bdim (a b : nat) : option nat :=
  if a =? b then Some a else if a =? 1 then Some b else if b =? 1 then Some a else None.
Fixpoint bshape_rev (a b : list nat) : option (list nat) :=
  match a, b with
  | [], l | l, [] => Some l
  | x :: a', y :: b' =>
      match bdim x y, bshape_rev a' b' with
      | Some d, Some s => Some (d :: s)
      | _, _ => None
      end
  end.
Definition bshape (a b : list nat) : option (list nat) :=
  option_map (@rev nat) (bshape_rev (rev a) (rev b)).
Definition bop {A B C} (f : A -> B -> C) (a : tensor A) (b : tensor B) : res (tensor C) :=
  match bshape (shape a) (shape b) with
  | Some s => Ok (mkT s (fun idx => f (get a (bproj (shape a) idx)) (get b (bproj (shape b) idx))))
  | None => Err RuntimeErr
  end.

(** ** Reductions of float tensors along one dimension *)
Definition reduce {A B} (red : nat -> (nat -> A) -> B) (d : nat) (t : tensor A) : tensor B :=
  mkT (remove_nth d (shape t)) (fun idx => red (size t d) (fun k => get t (insert_nth d k idx))).
Definition reduce_keep {A B} (red : nat -> (nat -> A) -> B) (d : nat) (t : tensor A) : tensor B :=
  mkT (set_nth d 1 (shape t)) (fun idx => red (size t d) (fun k => get t (set_nth d k idx))).

Definition tsum (d : nat) : tensor num -> tensor num := reduce nsum d.
Definition tsum_keep (d : nat) : tensor num -> tensor num := reduce_keep nsum d.
Definition tlogsumexp (d : nat) : tensor num -> tensor num := reduce nlogsumexp d.
Definition tlogsumexp_keep (d : nat) : tensor num -> tensor num := reduce_keep nlogsumexp d.
Definition tmax_keep (d : nat) : tensor num -> tensor num := reduce_keep nmaxl d.
Definition targmax (d : nat) : tensor num -> tensor nat := reduce nargmax d.
(** F.log_softmax(t, dim=d) *)
Definition tlog_softmax (d : nat) (t : tensor num) : tensor num :=
  mkT (shape t) (fun idx =>
    nsub (get t idx) (nlogsumexp (size t d) (fun k => get t (set_nth d k idx)))).
(** F.softmax(t, dim=d) *)
Definition tsoftmax (d : nat) (t : tensor num) : tensor num :=
  mkT (shape t) (fun idx =>
    ndiv (nexp (get t idx)) (nsum (size t d) (fun k => nexp (get t (set_nth d k idx))))).
Definition badd : tensor num -> tensor num -> res (tensor num) := bop nadd.
Definition bsub : tensor num -> tensor num -> res (tensor num) := bop nsub.
Definition bmul : tensor num -> tensor num -> res (tensor num) := bop nmul.

(** F.one_hot(t, n) as floats. *)
Definition one_hot (n : nat) (t : tensor nat) : tensor num :=
  mkT (shape t ++ [n]) (fun idx => Fin (if get t (removelast idx) =? last idx 0 then 1%R else 0%R)).

(** [t] has shape [s] and finite entries given by [f]. *)
Definition tfin (t : tensor num) (s : list nat) (f : list nat -> R) : Prop :=
  shape t = s /\ forall idx, inb s idx -> get t idx = Fin (f idx).
Definition all_fin (t : tensor num) : Prop := forall idx, inb (shape t) idx -> exists x, get t idx = Fin x.

(** * Facts *)

Lemma clamp_lt d i : i < d -> clamp d i = i.
Proof. unfold clamp. intros. destruct (Nat.eqb_spec d 1); lia. Qed.
Lemma clamp_1 i : clamp 1 i = 0.
Proof. reflexivity. Qed.
Lemma bdim_refl a : bdim a a = Some a.
Proof. unfold bdim. rewrite Nat.eqb_refl. auto. Qed.
Lemma bdim_1_l a : bdim 1 a = Some a.
Proof. unfold bdim. destruct (Nat.eqb_spec 1 a); subst; auto. Qed.
Lemma bdim_1_r a : bdim a 1 = Some a.
Proof. unfold bdim. destruct (Nat.eqb_spec a 1); subst; auto. Qed.

Lemma in_all_idx s idx : In idx (all_idx s) <-> inb s idx.
Proof.
  revert idx; induction s as [|d s IH]; intros idx; simpl.
  - destruct idx; simpl; intuition congruence.
  - rewrite in_flat_map. split.
    + intros (i & Hi & Hin). apply in_map_iff in Hin as (x & <- & Hx).
      simpl. split; [apply in_seq0; auto|apply IH; auto].
    + destruct idx as [|i idx]; [tauto|]. intros [Hi Hx].
      exists i. split; [apply in_seq0; auto|]. apply in_map, IH; auto.
Qed.

Lemma inb_length s idx : inb s idx -> length idx = length s.
Proof. revert idx; induction s; intros [|i idx]; simpl; try tauto. intros [_ H]. f_equal; auto. Qed.

Lemma ravel_lt s idx : inb s idx -> ravel s idx < numel s.
Proof.
  revert idx; induction s as [|d s IH]; intros [|i idx]; simpl; try tauto; try lia.
  intros [Hi H]. apply IH in H. nia.
Qed.
Lemma unravel_ravel s idx : inb s idx -> unravel s (ravel s idx) = idx.
Proof.
  revert idx; induction s as [|d s IH]; intros [|i idx]; simpl; try tauto.
  intros [Hi H]. pose proof (ravel_lt _ _ H) as L.
  rewrite Nat.div_add_l by lia. rewrite Nat.div_small by auto. rewrite Nat.add_0_r.
  rewrite (Nat.add_comm (i * numel s)), Nat.mod_add by lia. rewrite Nat.mod_small by auto.
  rewrite IH; auto.
Qed.
Lemma unravel_inb s m : m < numel s -> inb s (unravel s m).
Proof.
  revert m; induction s as [|d s IH]; simpl; intros m H; auto.
  assert (numel s <> 0) by (intro E; rewrite E in H; lia).
  split; [apply Nat.div_lt_upper_bound; lia|]. apply IH. apply Nat.mod_upper_bound; auto.
Qed.
Lemma ravel_unravel s m : m < numel s -> ravel s (unravel s m) = m.
Proof.
  revert m; induction s as [|d s IH]; simpl; intros m H; [lia|].
  assert (numel s <> 0) by (intro E; rewrite E in H; lia).
  rewrite IH by (apply Nat.mod_upper_bound; auto). pose proof (Nat.div_mod m (numel s)). lia.
Qed.

