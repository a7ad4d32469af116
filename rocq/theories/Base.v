(** Basic definitions: exceptions as values, list helpers. *)
From Coq Require Import List Arith Lia Bool String.
Import ListNotations.

(** Python exceptions that the modelled code can raise. *)
Inductive exn : Type :=
| AssertionError
| RuntimeErr      (* PyTorch shape, size or index error *)
| IndexErr
| ValueErr
| TypeErr
| AttributeErr
| NameErr         (* UnboundLocalError *)
| KeyErr
| ZeroDivErr
| InvalidTypeExc  (* simple_einet.type_checks.InvalidTypeException *)
| OutOfBoundsExc  (* simple_einet.type_checks.OutOfBoundsException *)
| InvalidStackedSpatialExc
| GenericExc      (* plain Exception(...) *)
| NotImplementedErr.

Inductive res (A : Type) : Type :=
| Ok (a : A)
| Err (e : exn).
Arguments Ok {A} _.
Arguments Err {A} _.

Definition bind {A B} (m : res A) (f : A -> res B) : res B :=
  match m with Ok a => f a | Err e => Err e end.

Declare Scope res_scope.
Delimit Scope res_scope with res.
Notation "x <- m ;; k" := (bind m (fun x => k))
  (at level 61, m at next level, right associativity) : res_scope.
Notation "' p <- m ;; k" := (bind m (fun p => k))
  (at level 61, p pattern, m at next level, right associativity) : res_scope.
Open Scope res_scope.

(** [assert b] is Python's [assert]. *)
Definition assert (b : bool) : res unit := if b then Ok tt else Err AssertionError.
(** [guard b e] raises [e] unless [b]. *)
Definition guard (b : bool) (e : exn) : res unit := if b then Ok tt else Err e.

Fixpoint mapM {A B} (f : A -> res B) (l : list A) : res (list B) :=
  match l with
  | [] => Ok []
  | a :: l' => b <- f a ;; bs <- mapM f l' ;; Ok (b :: bs)
  end.

Lemma bind_ok {A B} (m : res A) (f : A -> res B) b :
  bind m f = Ok b -> exists a, m = Ok a /\ f a = Ok b.
Proof. destruct m; simpl; intros; [eauto | discriminate]. Qed.

Lemma mapM_ok {A B} (f : A -> res B) l bs :
  mapM f l = Ok bs -> List.length bs = List.length l /\
  forall i a b, nth_error l i = Some a -> nth_error bs i = Some b -> f a = Ok b.
Proof.
  revert bs; induction l as [|x l IH]; simpl; intros bs H.
  - inversion H; subst. split; auto. intros [|i]; discriminate.
  - apply bind_ok in H as (b & Hb & H). apply bind_ok in H as (bs' & Hbs & H).
    inversion H; subst. destruct (IH _ Hbs) as [IH1 IH2]. split; [simpl; lia|].
    intros [|i] a b0; simpl; intros; [congruence | eauto].
Qed.

Lemma mapM_all {A B} (f : A -> res B) (g : A -> B) l :
  (forall a, In a l -> f a = Ok (g a)) -> mapM f l = Ok (map g l).
Proof.
  induction l as [|a l IH]; simpl; intros H; auto.
  rewrite (H a) by auto. simpl. rewrite IH by auto. reflexivity.
Qed.

(** * Lists *)

Fixpoint insert_nth {A} (k : nat) (v : A) (l : list A) : list A :=
  match k, l with
  | O, _ => v :: l
  | S k', a :: l' => a :: insert_nth k' v l'
  | S _, [] => [v]
  end.

Fixpoint remove_nth {A} (k : nat) (l : list A) : list A :=
  match k, l with
  | _, [] => []
  | O, _ :: l' => l'
  | S k', a :: l' => a :: remove_nth k' l'
  end.

Fixpoint set_nth {A} (k : nat) (v : A) (l : list A) : list A :=
  match k, l with
  | _, [] => []
  | O, _ :: l' => v :: l'
  | S k', a :: l' => a :: set_nth k' v l'
  end.

Fixpoint eqb_list (a b : list nat) : bool :=
  match a, b with
  | [], [] => true
  | x :: a', y :: b' => (x =? y) && eqb_list a' b'
  | _, _ => false
  end.

Lemma eqb_list_refl l : eqb_list l l = true.
Proof. induction l; simpl; auto. rewrite Nat.eqb_refl. auto. Qed.

Lemma eqb_list_eq a b : eqb_list a b = true <-> a = b.
Proof.
  revert b; induction a as [|x a IH]; intros [|y b]; simpl; split; intros H; try discriminate; auto.
  - apply andb_true_iff in H as [H1 H2]. apply Nat.eqb_eq in H1. apply IH in H2. congruence.
  - inversion H; subst. rewrite Nat.eqb_refl. apply IH. reflexivity.
Qed.

Lemma list_eqb_neq a b : a <> b -> eqb_list a b = false.
Proof. intros H. destruct (eqb_list a b) eqn:E; auto. apply eqb_list_eq in E. contradiction. Qed.

Lemma nth_map_seq {A} (f : nat -> A) n i d : i < n -> nth i (map f (seq 0 n)) d = f i.
Proof.
  intros H. rewrite nth_indep with (d' := f 0) by (rewrite map_length, seq_length; auto).
  rewrite map_nth. rewrite seq_nth; auto.
Qed.

Lemma seq_S_app s n : seq s (S n) = seq s n ++ [s + n].
Proof. replace (S n) with (n + 1) by lia. rewrite seq_app. reflexivity. Qed.

Lemma NoDup_map_inj {A B} (f : A -> B) l :
  (forall x y, In x l -> In y l -> f x = f y -> x = y) -> NoDup l -> NoDup (map f l).
Proof.
  induction l as [|a l IH]; simpl; intros Hf Hn; constructor.
  - inversion Hn; subst. intros Hin. apply in_map_iff in Hin as (x & Hx & Hin).
    apply Hf in Hx; auto. subst. contradiction.
  - inversion Hn; subst. apply IH; auto.
Qed.
