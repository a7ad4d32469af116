(** Argument checks.  Source: simple_einet/type_checks.py *)
From Coq Require Import List Arith Lia Bool ZArith Reals Lra.
Import ListNotations.
From Verif Require Import Base RSum Num.

(** The Python values that reach [check_valid].  Tensors are one-element tensors. *)
Inductive pyval : Type :=
| VNone
| VInt (z : Z)          (* int *)
| VFloat (x : num)      (* float *)
| VBool (b : bool)      (* bool: type(v) is neither int nor float *)
| VNpInt (z : Z)        (* np.integer scalar *)
| VNpFloat (x : num)    (* np.floating scalar *)
| VNpOther              (* any other object of a numpy type *)
| VTInt (z : Z)         (* torch tensor of an integer dtype *)
| VTFloat (x : num)     (* torch tensor of a floating dtype *)
| VOther.               (* str, list, ... *)

(** expected_type: the library passes [int] or [float] only. *)
Inductive pytype : Type := TInt | TFloat.
(** lower_bound / upper_bound: None, an int or a float. *)
Inductive bound : Type := BNone | BInt (z : Z) | BFloat (x : num).

Definition rtrunc (x : R) : Z := if Rle_dec 0 x then Int_part x else (- Int_part (- x))%Z.
(** Python truth value of a bound. *)
Definition truthy (b : bound) : bool :=
  match b with
  | BNone => false
  | BInt z => negb (Z.eqb z 0)
  | BFloat (Fin x) => if Req_EM_T x 0 then false else true
  | BFloat _ => true
  end.
(** expected_type(bound) *)
Definition conv_bound (t : pytype) (b : bound) : res num :=
  match t, b with
  | _, BNone => Err TypeErr
  | _, BInt z => Ok (Fin (IZR z))
  | TFloat, BFloat x => Ok x
  | TInt, BFloat (Fin x) => Ok (Fin (IZR (rtrunc x)))
  | TInt, BFloat NaN => Err ValueErr
  | TInt, BFloat _ => Err GenericExc      (* OverflowError *)
  end.
(** The number a value stands for in a comparison. *)
Definition numval (v : pyval) : num :=
  match v with
  | VInt z | VNpInt z | VTInt z => Fin (IZR z)
  | VFloat x | VNpFloat x | VTFloat x => x
  | _ => NaN
  end.
Definition nge (a b : num) : bool := negb (nltb a b) && negb (isnan a) && negb (isnan b).

(** type_checks.py:36-57 *)
Definition check_bounds (v : pyval) (t : pytype) (lo hi : bound) : res unit :=
  _ <- (if truthy lo then
          b <- conv_bound t lo ;; guard (nge (numval v) b) OutOfBoundsExc
        else Ok tt) ;;
  if truthy hi then
    b <- conv_bound t hi ;; guard (nltb (numval v) b) OutOfBoundsExc
  else Ok tt.

(** type_checks.py:84-98, 101-122, 125-148 *)
Definition check_type_core (v : pyval) (t : pytype) : res unit :=
  match t, v with
  | TFloat, VFloat _ | TInt, VInt _ => Ok tt
  | _, _ => Err InvalidTypeExc
  end.
Definition check_type_numpy (v : pyval) (t : pytype) : res unit :=
  match t, v with
  | TFloat, VNpFloat _ | TInt, VNpInt _ => Ok tt
  | _, _ => Err InvalidTypeExc
  end.
Definition check_type_torch (v : pyval) (t : pytype) : res unit :=
  match t, v with
  | TFloat, VTFloat _ | TInt, VTInt _ => Ok tt
  | _, _ => Err InvalidTypeExc
  end.
(** type_checks.py:60-81 *)
Definition check_type (v : pyval) (t : pytype) : res unit :=
  match v with
  | VTInt _ | VTFloat _ => check_type_torch v t
  | VNpInt _ | VNpFloat _ | VNpOther => check_type_numpy v t
  | VInt _ | VFloat _ => check_type_core v t
  | _ => Err GenericExc
  end.
(** expected_type(value), only reached for values of that type. *)
Definition conv_value (t : pytype) (v : pyval) : res pyval :=
  match t, v with
  | TInt, (VInt z | VNpInt z | VTInt z) => Ok (VInt z)
  | TFloat, (VFloat x | VNpFloat x | VTFloat x) => Ok (VFloat x)
  | _, _ => Err TypeErr
  end.
(** type_checks.py:151-178 *)
Definition check_valid (v : pyval) (t : pytype) (lo hi : bound) (allow_none : bool) : res pyval :=
  match v with
  | VNone => if allow_none then Ok VNone else Err GenericExc
  | _ =>
      _ <- check_type v t ;;
      _ <- check_bounds v t lo hi ;;
      conv_value t v
  end.

(** * Specification, independent of the functions above *)

(** [v] is a number of type [t] with value [x]. *)
Inductive is_num : pyval -> pytype -> num -> Prop :=
| isn_int z : is_num (VInt z) TInt (Fin (IZR z))
| isn_npint z : is_num (VNpInt z) TInt (Fin (IZR z))
| isn_tint z : is_num (VTInt z) TInt (Fin (IZR z))
| isn_float x : is_num (VFloat x) TFloat x
| isn_npfloat x : is_num (VNpFloat x) TFloat x
| isn_tfloat x : is_num (VTFloat x) TFloat x.
(** A bound of the matching type with a real value. *)
Inductive bound_val : bound -> pytype -> option R -> Prop :=
| bv_none t : bound_val BNone t None
| bv_int z t : bound_val (BInt z) t (Some (IZR z))
| bv_float x : bound_val (BFloat (Fin x)) TFloat (Some x).
Definition ge_bound (x : num) (b : option R) : Prop :=
  match b with None => True | Some l => match x with Fin y => (l <= y)%R | PInf => True | _ => False end end.
Definition lt_bound (x : num) (b : option R) : Prop :=
  match b with None => True | Some u => match x with Fin y => (y < u)%R | NInf => True | _ => False end end.

(** The bounds that the code looks at. *)
Definition nonzero (b : option R) : Prop := match b with Some x => x <> 0%R | None => True end.

Lemma truthy_spec b t ob : bound_val b t ob -> truthy b = match ob with None => false | Some x => if Req_EM_T x 0 then false else true end.
Proof.
  intros H; inversion H; subst; simpl; auto.
  destruct (Req_EM_T (IZR z) 0) as [E|E].
  - apply eq_IZR_R0 in E. subst. reflexivity.
  - destruct (Z.eqb_spec z 0); [subst; exfalso; apply E; reflexivity|reflexivity].
Qed.
Lemma conv_bound_spec b t x : bound_val b t (Some x) -> conv_bound t b = Ok (Fin x).
Proof. intros H; inversion H as [|z t' E|y E]; subst; [destruct t|]; reflexivity. Qed.
Lemma is_num_numval v t x : is_num v t x -> numval v = x.
Proof. intros H; inversion H; reflexivity. Qed.
Lemma is_num_type v t x : is_num v t x -> check_type v t = Ok tt.
Proof. intros H; inversion H; reflexivity. Qed.
Lemma check_type_is_num v t : v <> VNone -> check_type v t = Ok tt -> is_num v t (numval v).
Proof. destruct v, t; simpl; intros; try discriminate; try congruence; constructor. Qed.
Lemma nge_spec x l : nge x (Fin l) = true <-> ge_bound x (Some l).
Proof.
  unfold nge. destruct x; simpl; try (split; [discriminate|tauto]); try tauto.
  destruct (Rlt_dec x l); simpl; split; intros; auto; try discriminate; lra.
Qed.
Lemma nlt_spec x l : nltb x (Fin l) = true <-> lt_bound x (Some l).
Proof.
  destruct x; simpl; try (split; [discriminate|tauto]); try tauto.
  destruct (Rlt_dec x l); simpl; split; intros; auto; try discriminate; lra.
Qed.
Lemma conv_value_spec v t x : is_num v t x -> exists v', conv_value t v = Ok v' /\ is_num v' t x.
Proof. intros H; inversion H; simpl; eexists; split; try reflexivity; constructor. Qed.

(** Complete description of the accepted values when no bound is zero. *)
Lemma check_valid_nonzero v t lo hi an ol oh :
  bound_val lo t ol -> bound_val hi t oh -> nonzero ol -> nonzero oh -> v <> VNone ->
  (exists v', check_valid v t lo hi an = Ok v') <-> (exists x, is_num v t x /\ ge_bound x ol /\ lt_bound x oh).
Proof.
  intros Hl Hh Nl Nh Hv.
  assert (E: check_valid v t lo hi an =
    (_ <- check_type v t ;; _ <- check_bounds v t lo hi ;; conv_value t v)) by (destruct v; auto; congruence).
  rewrite E. split.
  - intros (v' & H). apply bind_ok in H as ([] & Ht & H). apply bind_ok in H as ([] & Hb & H).
    exists (numval v). split; [apply check_type_is_num; auto|].
    unfold check_bounds in Hb. rewrite (truthy_spec _ _ _ Hl), (truthy_spec _ _ _ Hh) in Hb.
    apply bind_ok in Hb as ([] & H1 & H2). split.
    + destruct ol as [l|]; simpl; auto. simpl in Nl. destruct (Req_EM_T l 0); [tauto|].
      rewrite (conv_bound_spec _ _ _ Hl) in H1. simpl in H1. apply (nge_spec _ l).
      destruct (nge _ _); auto; discriminate.
    + destruct oh as [u|]; simpl; auto. simpl in Nh. destruct (Req_EM_T u 0); [tauto|].
      rewrite (conv_bound_spec _ _ _ Hh) in H2. simpl in H2. apply (nlt_spec _ u).
      destruct (nltb _ _); auto; discriminate.
  - intros (x & Hn & G & L). rewrite (is_num_type _ _ _ Hn). simpl.
    destruct (conv_value_spec _ _ _ Hn) as (v' & Hc & _). exists v'.
    unfold check_bounds. rewrite (truthy_spec _ _ _ Hl), (truthy_spec _ _ _ Hh), (is_num_numval _ _ _ Hn).
    destruct ol as [l|].
    + rewrite (conv_bound_spec _ _ _ Hl). simpl. apply nge_spec in G. rewrite G.
      destruct (Req_EM_T l 0); simpl; (destruct oh as [u|]; [|auto]);
      rewrite (conv_bound_spec _ _ _ Hh); simpl; apply nlt_spec in L; rewrite L; destruct (Req_EM_T u 0); auto.
    + simpl. destruct oh as [u|]; [|auto].
      rewrite (conv_bound_spec _ _ _ Hh); simpl; apply nlt_spec in L; rewrite L; destruct (Req_EM_T u 0); auto.
Qed.

(** Values inside the bounds are accepted and returned, whatever the bounds. *)
Lemma check_valid_accepts v t lo hi an ol oh x :
  bound_val lo t ol -> bound_val hi t oh -> is_num v t x -> ge_bound x ol -> lt_bound x oh ->
  exists v', check_valid v t lo hi an = Ok v' /\ is_num v' t x.
Proof.
  intros Hl Hh Hn G L.
  destruct (conv_value_spec _ _ _ Hn) as (v' & Hc & Hv'). exists v'. split; auto.
  assert (E: check_valid v t lo hi an =
    (_ <- check_type v t ;; _ <- check_bounds v t lo hi ;; conv_value t v)) by (inversion Hn; auto).
  rewrite E, (is_num_type _ _ _ Hn). simpl.
  unfold check_bounds. rewrite (truthy_spec _ _ _ Hl), (truthy_spec _ _ _ Hh), (is_num_numval _ _ _ Hn).
  destruct ol as [l|].
  - rewrite (conv_bound_spec _ _ _ Hl). simpl. apply nge_spec in G. rewrite G.
    destruct (Req_EM_T l 0); simpl; (destruct oh as [u|]; [|auto]);
    rewrite (conv_bound_spec _ _ _ Hh); simpl; apply nlt_spec in L; rewrite L; destruct (Req_EM_T u 0); auto.
  - simpl. destruct oh as [u|]; [|auto].
    rewrite (conv_bound_spec _ _ _ Hh); simpl; apply nlt_spec in L; rewrite L; destruct (Req_EM_T u 0); auto.
Qed.

(** A value of the wrong kind is always rejected. *)
Lemma check_valid_rejects_type v t lo hi an :
  v <> VNone -> (forall x, ~ is_num v t x) -> exists e, check_valid v t lo hi an = Err e.
Proof.
  intros Hv Hn. destruct (check_valid v t lo hi an) as [v'|e] eqn:E; [|eauto]. exfalso.
  assert (E2: check_valid v t lo hi an =
    (_ <- check_type v t ;; _ <- check_bounds v t lo hi ;; conv_value t v)) by (destruct v; auto; congruence).
  rewrite E2 in E. apply bind_ok in E as ([] & Ht & _). apply (Hn (numval v)). apply check_type_is_num; auto.
Qed.

(** Bounds equal to zero are ignored. *)
Lemma check_valid_zero_lower z an : check_valid (VInt z) TInt (BInt 0) BNone an = Ok (VInt z).
Proof. reflexivity. Qed.
Lemma check_valid_zero_lower_float x hi an : (x < hi)%R -> hi <> 0%R ->
  check_valid (VFloat (Fin x)) TFloat (BFloat (Fin 0)) (BFloat (Fin hi)) an = Ok (VFloat (Fin x)).
Proof.
  intros H H0. unfold check_valid, check_bounds. simpl.
  destruct (Req_EM_T 0 0); [|congruence]. destruct (Req_EM_T hi 0); [congruence|].
  simpl. destruct (Rlt_dec x hi); [reflexivity|tauto].
Qed.
