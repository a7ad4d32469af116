(** C21: check_valid. *)
From Coq Require Import List Bool ZArith Reals Lra.
Import ListNotations.
From Verif Require Import Base Num TypeChecks.

(** Values of the right type inside the bounds are accepted and returned with their value. *)
Theorem C21_check_valid_accepts : forall v t lo hi an ol oh x,
  bound_val lo t ol -> bound_val hi t oh -> is_num v t x -> ge_bound x ol -> lt_bound x oh ->
  exists v', check_valid v t lo hi an = Ok v' /\ is_num v' t x.
Proof. exact check_valid_accepts. Qed.
Print Assumptions C21_check_valid_accepts.
Example C21_accepts_ex : exists v', check_valid (VNpInt 3) TInt (BInt 1) (BInt 4) false = Ok v' /\ is_num v' TInt (Fin 3).
Proof. apply (C21_check_valid_accepts _ _ _ _ _ (Some 1%R) (Some 4%R)); try constructor; simpl; lra. Qed.

(** With bounds other than zero, exactly these values are accepted. *)
Theorem C21_check_valid_exact_partial : forall v t lo hi an ol oh,
  bound_val lo t ol -> bound_val hi t oh -> nonzero ol -> nonzero oh -> v <> VNone ->
  (exists v', check_valid v t lo hi an = Ok v') <-> (exists x, is_num v t x /\ ge_bound x ol /\ lt_bound x oh).
Proof. exact check_valid_nonzero. Qed.
Print Assumptions C21_check_valid_exact_partial.
Example C21_exact_ex : ~ exists v', check_valid (VInt 4) TInt (BInt 1) (BInt 4) false = Ok v'.
Proof.
  rewrite (C21_check_valid_exact_partial _ _ _ _ _ (Some 1%R) (Some 4%R)); try constructor; simpl; try lra; try congruence.
  intros (x & H & _ & L). inversion H; subst. simpl in L. lra.
Qed.

(** A value of the wrong type is rejected. *)
Theorem C21_check_valid_rejects_type : forall v t lo hi an,
  v <> VNone -> (forall x, ~ is_num v t x) -> exists e, check_valid v t lo hi an = Err e.
Proof. exact check_valid_rejects_type. Qed.
Print Assumptions C21_check_valid_rejects_type.
Example C21_rejects_ex : exists e, check_valid (VBool true) TInt (BInt 0) BNone false = Err e.
Proof. apply C21_check_valid_rejects_type; [congruence|]. intros x H; inversion H. Qed.

(** The full claim fails: a bound of 0 is never enforced. *)
Theorem C21_zero_bound_refuted : exists v lo x,
  is_num v TInt x /\ bound_val lo TInt (Some 0%R) /\ ~ ge_bound x (Some 0%R) /\
  check_valid v TInt lo BNone false = Ok v.
Proof.
  exists (VInt (-1)), (BInt 0), (Fin (-1)). split; [constructor|]. split; [constructor|].
  split; [simpl; lra|reflexivity].
Qed.
Print Assumptions C21_zero_bound_refuted.
