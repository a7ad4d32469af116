(** Configuration and construction of an Einet.
    Sources: simple_einet/einet.py:25-83 (EinetConfig), 95-113 (Einet.__init__), 238-508 (construction);
    abstract_layers.py:20-29, 121-134 (layer constructors); layers/factorized_leaf.py:43-67, 230-254.

    Univariate leaves.  Values that Python draws at random (initial weights, permutations, group
    sizes) come from an [oracle]. *)
From Coq Require Import List Arith Lia Bool ZArith Reals.
Import ListNotations.
From Verif Require Import Base RSum Num Tensor Prob Layers Leaf TypeChecks Einet.

Inductive ltype : Type := TLinsum | TLinsum2 | TEinsum | TOtherLayer.
Inductive stype : Type := STopDown | SBottomUp | SOther.
Inductive leaf_arg : Type := NoLeaf | NotALeaf | LeafClass.

(** einet.py:25-40.  [g_card] is leaf_kwargs["cardinality"] if present. *)
Record config : Type := mkConfig {
  g_F : pyval; g_C : pyval; g_S : pyval; g_L : pyval; g_R : pyval; g_K : pyval;
  g_depth : pyval; g_drop : pyval; g_leaf : leaf_arg; g_card : option Z;
  g_layer : ltype; g_struct : stype }.

Definition zval (v : pyval) : Z := match v with VInt z | VNpInt z | VTInt z => z | _ => 0%Z end.
Definition nval (v : pyval) : nat := Z.to_nat (zval v).

(** 2**depth <= ceil(num_features // cardinality), einet.py:79-83.  A negative int exponent gives a
    float between 0 and 1; NumPy and PyTorch reject a negative integer exponent. *)
Definition pow2_le (d : pyval) (m : Z) : res bool :=
  if (zval d <? 0)%Z then match d with VInt _ => Ok (1 <=? m)%Z | VNpInt _ => Err ValueErr | _ => Err RuntimeErr end
  else Ok (2 ^ zval d <=? m)%Z.

(** einet.py:42-83 *)
Definition check_int (v : pyval) (lo : Z) : res unit := _ <- check_valid v TInt (BInt lo) BNone false ;; Ok tt.
Definition assert_valid (g : config) : res unit :=
  _ <- check_int (g_depth g) 0 ;;
  _ <- check_int (g_F g) 2 ;;
  _ <- check_int (g_C g) 1 ;;
  _ <- check_int (g_K g) 1 ;;
  _ <- check_int (g_S g) 1 ;;
  _ <- check_int (g_R g) 1 ;;
  _ <- check_int (g_L g) 1 ;;
  _ <- check_valid (g_drop g) TFloat (BFloat (Fin 0)) (BFloat (Fin 1)) true ;;
  _ <- assert (match g_leaf g with NoLeaf => false | _ => true end) ;;
  _ <- assert (match g_layer g with TOtherLayer => false | _ => true end) ;;
  _ <- assert (match g_struct g with SOther => false | _ => true end) ;;
  _ <- assert (match g_leaf g with LeafClass => true | _ => false end) ;;
  let card := match g_card g with Some c => c | None => 1%Z end in
  _ <- match g_struct g with
       | SBottomUp => assert (match g_layer g with TLinsum => true | _ => false end)
       | _ => Ok tt
       end ;;
  _ <- guard (negb (card =? 0)%Z) ZeroDivErr ;;
  b <- pow2_le (g_depth g) (zval (g_F g) / card) ;;
  assert b.

(** Everything drawn at random during construction: the logits of the i-th intermediate layer, of
    the root sum layer of a bottom-up network, of the mixing layer and of the class sampling root;
    the shuffled group sizes; the permutation of each repetition; the leaf object. *)
Record oracle (V : Type) : Type := mkOracle {
  o_logits : nat -> list nat -> num;
  o_top : list nat -> num;
  o_mix : list nat -> num;
  o_root : list nat -> num;
  o_sizes : list nat;
  o_perm : nat -> list nat;
  o_leaf : nat -> nat -> nat -> nat -> res (bleaf V) }.
Arguments mkOracle {V}. Arguments o_logits {V}. Arguments o_top {V}. Arguments o_mix {V}. Arguments o_root {V}.
Arguments o_sizes {V}. Arguments o_perm {V}. Arguments o_leaf {V}.

(** torch.distributions.Bernoulli(probs=p) validates 0 <= p <= 1 (PyTorch's default). *)
Definition bernoulli_ok (p : num) : bool :=
  match p with Fin x => if Rle_dec 0 x then if Rle_dec x 1 then true else false else false | _ => false end.
(** abstract_layers.py:20-29 and 121-134 with the weight shape of the class. *)
Definition new_layer (ws : slay -> list nat) (lg : list nat -> num) (nf sin sout nrep : nat) (drop : pyval) : res slay :=
  _ <- check_int (VInt (Z.of_nat nf)) 1 ;;
  _ <- check_int (VInt (Z.of_nat nrep)) 1 ;;
  _ <- check_int (VInt (Z.of_nat sin)) 1 ;;
  _ <- check_int (VInt (Z.of_nat sout)) 1 ;;
  d <- check_valid drop TFloat (BFloat (Fin 0)) (BFloat (Fin 1)) false ;;
  _ <- guard (bernoulli_ok (numval d)) ValueErr ;;
  Ok (mkL nf sin sout nrep (mkT (ws (mkL nf sin sout nrep (mkT [] lg))) lg)).
(** The default [dropout=0.0]; EinsumLayer does not pass its argument on (einsum.py:63-68). *)
Definition no_drop : pyval := VFloat (Fin 0).

Definition new_intermediate (t : ltype) (lg : list nat -> num) (nf sin sout nrep : nat) (drop : pyval) : res layer :=
  match t with
  | TEinsum => L <- new_layer einsum_weight_shape lg nf sin sout nrep no_drop ;; Ok (LEin L)
  | TLinsum => L <- new_layer linsum_weight_shape lg nf sin sout nrep drop ;; Ok (LLin L)
  | TLinsum2 => L <- new_layer linsum2_weight_shape lg nf sin sout nrep drop ;; Ok (LLin2 L)
  | TOtherLayer => Err ValueErr
  end.

(** layer.num_features, layer.num_features_out *)
Definition layer_nf (l : layer) : nat :=
  match l with LEin L | LLin L | LLin2 L | LSum L => nf L | LRoot D => D end.
Definition layer_nfo (l : layer) : nat :=
  match l with
  | LEin L => einsum_features_out L
  | LLin L | LLin2 L => linsum_features_out L
  | LSum L => nf L
  | LRoot D => D
  end.

Section Build.
Context {V : Type}.
Variable g : config.
Variable o : oracle V.

Let F := nval (g_F g).
Let C := nval (g_C g).
Let S' := nval (g_S g).
Let Lv := nval (g_L g).
Let R := nval (g_R g).
Let K := nval (g_K g).
Let depth := nval (g_depth g).     (* number of loop iterations; 0 for a negative depth *)

(** einet.py:316-323, 448-455 *)
Definition build_mixing : res (option slay) :=
  if 1 <? R then m <- new_layer mixing_weight_shape (o_mix o) 1 R K 1 (g_drop g) ;; Ok (Some m) else Ok None.
(** einet.py:326-340, 458-472.  The attribute [weights] set afterwards is never read. *)
Definition build_root : res (option slay) :=
  if 1 <? K then m <- new_layer sum_weight_shape (o_root o) 1 K 1 1 no_drop ;; Ok (Some m) else Ok None.

(** einet.py:251-297, one iteration *)
Definition top_layer (i : nat) : res layer :=
  let sin := if i <? depth then S' else Lv in
  let sout := if i =? 1 then K else S' in
  new_intermediate (g_layer g) (o_logits o i) (2 ^ i) sin sout R (g_drop g).
(** einet.py:486-508 *)
Definition build_input (Fo : nat) : res (leaf_layer V) :=
  lf <- o_leaf o F C Lv R ;;
  if R =? 1 then Ok (LSimple lf Fo (o_perm o 0) (argsort (o_perm o 0)))
  else Ok (LFact lf Fo (make_scopes F Fo R (o_sizes o) (o_perm o))).
(** einet.py:238-340 *)
Definition build_top_down : res (einet V) :=
  ls <- mapM top_layer (seq 1 depth) ;;
  ls <- (if (zval (g_depth g) =? 0)%Z
         then L <- new_layer sum_weight_shape (o_logits o 0) 1 Lv K R (g_drop g) ;; Ok (ls ++ [LSum L])
         else Ok ls) ;;
  l <- match rev ls with [] => Err IndexErr | l :: _ => Ok l end ;;
  leaf <- build_input (layer_nf l) ;;
  m <- build_mixing ;;
  r <- build_root ;;
  Ok (mkE F C Lv R K leaf None (rev ls) m r).

(** einet.py:355-407: iterations [i], [i+1], ... with the current number of input features. *)
Fixpoint bottom_layers (k i nfeat : nat) : res (list layer) :=
  match k with
  | O => Ok []
  | S k' =>
      let sin := if i =? 0 then Lv else S' in
      l <- new_intermediate (g_layer g) (o_logits o i) nfeat sin S' R (g_drop g) ;;
      ls <- bottom_layers k' (S i) (layer_nfo l) ;;
      Ok (l :: ls)
  end.
(** einet.py:342-472 *)
Definition build_bottom_up : res (einet V) :=
  ls <- bottom_layers depth 0 F ;;
  _ <- (if (zval (g_depth g) =? 0)%Z
        then L <- new_layer sum_weight_shape (o_logits o 0) 1 Lv K R (g_drop g) ;; Ok (ls ++ [LSum L])
        else Ok ls) ;;
  _ <- guard (0 <? depth) NameErr ;;       (* _num_sums_out is bound by the loop only *)
  l <- match rev ls with [] => Err IndexErr | l :: _ => Ok l end ;;
  rs <- new_layer sum_weight_shape (o_top o) (layer_nfo l) S' K R no_drop ;;
  lf <- o_leaf o F C Lv R ;;
  m <- build_mixing ;;
  r <- build_root ;;
  Ok (mkE F C Lv R K (LBase lf) (Some (o_perm o, fun i => argsort (o_perm o i)))
       (ls ++ [LSum rs; LRoot (layer_nfo l)]) m r).

(** einet.py:95-113 *)
Definition build : res (einet V) :=
  _ <- assert_valid g ;;
  match g_struct g with
  | STopDown => build_top_down
  | SBottomUp => build_bottom_up
  | SOther => Err ValueErr
  end.
End Build.
