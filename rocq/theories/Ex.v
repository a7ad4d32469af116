(** Concrete networks used beside the theorems, to show that their hypotheses can be met and to refute
    claims that do not hold. *)
From Coq Require Import List Arith Lia Bool ZArith Reals Lra Permutation.
Import ListNotations.
From Verif Require Import Base RSum Num Tensor Prob Layers Circuit Net RefFwd Leaf Perm RefLeaf TypeChecks Einet RefNet RefEinet RefEinetS RefScopes Build RefBuild Spec.

(** A configuration with plain ints and a float dropout rate. *)
Definition plain (F C S L Rn K d : nat) (drop : R) (t : ltype) (s : stype) : config :=
  mkConfig (VInt (Z.of_nat F)) (VInt (Z.of_nat C)) (VInt (Z.of_nat S)) (VInt (Z.of_nat L)) (VInt (Z.of_nat Rn))
    (VInt (Z.of_nat K)) (VInt (Z.of_nat d)) (VFloat (Fin drop)) LeafClass None t s.
Lemma nval_nat n : nval (VInt (Z.of_nat n)) = n.
Proof. unfold nval. cbn [zval]. lia. Qed.

(** Plain configurations within the documented bounds are accepted. *)
Lemma plain_valid F C S L R K d drop t s : (2 <= F)%nat -> (1 <= C)%nat -> (1 <= S)%nat -> (1 <= L)%nat -> (1 <= R)%nat -> (1 <= K)%nat ->
  (0 <= drop < 1)%R -> t <> TOtherLayer -> s <> SOther -> (s = SBottomUp -> t = TLinsum) -> (2 ^ d <= F)%nat ->
  assert_valid (plain F C S L R K d drop t s) = Ok tt.
Proof.
  intros HF HC HS HL HR HK Hd Ht Hs Hb Hp. unfold assert_valid, plain. cbn [g_depth g_F g_C g_K g_S g_R g_L g_drop g_leaf g_layer g_struct g_card].
  rewrite (check_int_ok (VInt (Z.of_nat d)) 0 (Fin (IZR (Z.of_nat d)))); [|constructor|cbn [zval]; lia]. cbn [bind].
  rewrite (check_int_ok (VInt (Z.of_nat F)) 2 (Fin (IZR (Z.of_nat F)))); [|constructor|cbn [zval]; lia]. cbn [bind].
  rewrite !check_nat by auto. cbn [bind].
  destruct (check_valid_accepts (VFloat (Fin drop)) TFloat (BFloat (Fin 0)) (BFloat (Fin 1)) true (Some 0%R) (Some 1%R) (Fin drop)) as (v' & E & _);
    [constructor|constructor|constructor|simpl; lra|simpl; lra|]. rewrite E. cbn [bind assert guard].
  destruct t; [| | |congruence]; (destruct s; [| |congruence]); cbn [bind assert guard]; try (specialize (Hb eq_refl); discriminate Hb);
  (destruct (Z.eqb_spec 1 0); [lia|]); cbn [negb guard bind]; unfold pow2_le; cbn [zval];
  (destruct (Z.ltb_spec (Z.of_nat d) 0); [lia|]); cbn [bind]; rewrite Z.div_1_r;
  (destruct (Z.leb_spec (2 ^ Z.of_nat d) (Z.of_nat F)); [reflexivity|]);
  exfalso; apply Nat2Z.inj_le in Hp; rewrite Nat2Z.inj_pow in Hp; change (Z.of_nat 2) with 2%Z in Hp; lia.
Qed.

(** A leaf with values 0 and 1: component [key] returns 0 with probability [p key]. *)
Definition coin (p : list nat -> R) (F C L Rn : nat) : bleaf nat :=
  mkLf C F L Rn (fun key v => Fin (ln (if (v =? 0)%nat then p key else 1 - p key)))
    (fun v => (v <? 2)%nat) 0%nat (Some (fun key => if Rle_dec (1/2) (p key) then 0 else 1)%nat) true.
Lemma coin_ok p F C L R : leaf_ok (coin p F C L R).
Proof. split; [reflexivity|]. intros; reflexivity. Qed.
Lemma coin_discrete p F C L R : (forall key, (0 < p key < 1)%R) -> discrete_leaf 2 (coin p F C L R).
Proof.
  intros H. split; [reflexivity|]. intros c f l r _ _ _ _. specialize (H [c; f; l; r]).
  unfold coin. cbn [lf_logp]. rewrite !rsum_S, rsum_0. cbn [Nat.eqb pval]. rewrite !exp_ln by lra. lra.
Qed.

(** Random choices: logits that grow with the index, given group sizes and permutations. *)
Definition grow (idx : list nat) : num := Fin (INR (list_sum idx)).
Definition choices (sizes : list nat) (perm : nat -> list nat) (p : list nat -> R) : oracle nat :=
  mkOracle (fun i idx => grow (i :: idx)) grow grow grow sizes perm (fun F C L R => Ok (coin p F C L R)).
Lemma choices_ok F C S L R K d drop t s sizes perm p :
  let g := plain F C S L R K d drop t s in
  Permutation sizes (group_sizes F (2 ^ d)) -> (forall r, (r < R)%nat -> is_perm (perm r) (perm_len g)) ->
  oracle_ok g (choices sizes perm p).
Proof.
  intros g Hs Hp. unfold g in *. split; cbn [choices o_logits o_top o_mix o_root o_sizes o_perm o_leaf]; auto.
  - unfold groups_of, plain. cbn [g_F g_depth]. rewrite !nval_nat. auto.
  - unfold plain in *. cbn [g_R] in *. rewrite nval_nat. auto.
  - unfold plain. cbn [g_F g_C g_L g_R]. rewrite !nval_nat. eexists. split; [reflexivity|]. split; [apply coin_ok|]. repeat split.
Qed.

(** * Top-down: 5 features in 4 groups, 2 channels, 2 repetitions, 3 classes *)
Definition ex_td_g : config := plain 5 2 3 2 2 3 2 0 TEinsum STopDown.
Definition ex_td_perm (r : nat) : list nat := if (r =? 0)%nat then [0; 1; 2; 3; 4] else [4; 2; 0; 3; 1].
Definition third (key : list nat) : R := 1 / 3.
Definition ex_td_o : oracle nat := choices [1; 2; 1; 1] ex_td_perm third.
Lemma third_ok key : (0 < third key < 1)%R.
Proof. unfold third. lra. Qed.

Ltac perms := unfold is_perm; simpl; repeat first [apply Permutation_refl | apply perm_skip | 
  match goal with |- Permutation (?a :: ?l) ?l' => 
    let rec go pre l2 := match l2 with
      | a :: ?t => apply (Permutation_cons_app pre t a)
      | ?b :: ?t => let pre' := eval simpl in (pre ++ [b]) in go pre' t end in go (@nil nat) l'; simpl end].

Lemma ex_td_oracle : oracle_ok ex_td_g ex_td_o.
Proof.
  apply choices_ok.
  - cbn. perms.
  - intros r Hr. unfold perm_len, plain. cbn [g_struct g_R g_F]. rewrite !nval_nat. cbn [Nat.eqb].
    destruct r as [|[|]]; [| |lia]; unfold ex_td_perm; cbn [Nat.eqb]; perms.
Qed.
Lemma ex_td : exists E, accepted ex_td_g ex_td_o E /\ e_F E = 5%nat /\ e_C E = 2%nat /\ e_R E = 2%nat /\ e_K E = 3%nat /\
  discrete_leaf 2 (leafE E) /\ lf_ctx (leafE E) = true /\ e_L E = 2%nat.
Proof.
  destruct (build_succeeds ex_td_g ex_td_o) as (E & HE).
  - apply plain_valid; try lia; try lra; try congruence. simpl; lia.
  - reflexivity.
  - apply ex_td_oracle.
  - exists 0%R. split; [constructor|lra].
  - cbn [ex_td_g plain g_depth zval]. lia.
  - discriminate.
  - exists E. assert (A: accepted ex_td_g ex_td_o E) by (split; [reflexivity|apply ex_td_oracle|exact HE]).
    destruct (build_inv ex_td_g ex_td_o E eq_refl ex_td_oracle HE) as (_ & EF & EC & ER & EK).
    split; [exact A|]. cbn [ex_td_g plain g_F g_C g_R g_K] in *. rewrite nval_nat in *.
    repeat (split; [assumption|]).
    assert (L: leafE E = coin third 5 2 2 2).
    { unfold build in HE. apply bind_ok in HE as ([] & _ & HE). cbn [ex_td_g plain g_struct] in HE. unfold build_top_down in HE.
      apply bind_ok in HE as (? & _ & HE). apply bind_ok in HE as (? & _ & HE). apply bind_ok in HE as (? & _ & HE).
      apply bind_ok in HE as (lf & Hl & HE). apply bind_ok in HE as (? & _ & HE). apply bind_ok in HE as (? & _ & HE).
      inversion HE. unfold leafE. cbn [e_leaf]. unfold build_input in Hl. cbn [ex_td_o choices o_leaf] in Hl.
      unfold ex_td_g, plain in Hl. cbn [g_F g_C g_L g_R] in Hl. rewrite !nval_nat in Hl. cbn [bind Nat.eqb] in Hl. inversion Hl. reflexivity. }
    rewrite L. split; [apply coin_discrete; apply third_ok|]. split; [reflexivity|].
    destruct (build_inv _ _ E (ac_card _ _ _ A) (ac_oracle _ _ _ A) (ac_build _ _ _ A)) as (HO & _). rewrite <- (eo_lL E HO). fold (leafE E). rewrite L. reflexivity.
Qed.

(** * Bottom-up: 5 features, 2 repetitions, one class *)
Definition ex_bu_g : config := plain 5 1 3 2 2 1 2 0 TLinsum SBottomUp.
Definition ex_bu_o : oracle nat := choices [1; 2; 1; 1] ex_td_perm third.
Lemma ex_bu_oracle : oracle_ok ex_bu_g ex_bu_o.
Proof.
  apply choices_ok.
  - cbn. perms.
  - intros r Hr. unfold perm_len, plain. cbn [g_struct g_R g_F]. rewrite !nval_nat.
    destruct r as [|[|]]; [| |lia]; unfold ex_td_perm; cbn [Nat.eqb]; perms.
Qed.
Lemma ex_bu : exists E, accepted ex_bu_g ex_bu_o E /\ e_F E = 5%nat /\ e_C E = 1%nat /\ e_R E = 2%nat /\ e_K E = 1%nat /\
  discrete_leaf 2 (leafE E) /\ lf_ctx (leafE E) = true /\ e_L E = 2%nat.
Proof.
  destruct (build_succeeds ex_bu_g ex_bu_o) as (E & HE).
  - apply plain_valid; try lia; try lra; try congruence. simpl; lia.
  - reflexivity.
  - apply ex_bu_oracle.
  - exists 0%R. split; [constructor|lra].
  - cbn [ex_bu_g plain g_depth zval]. lia.
  - intros _. cbn [ex_bu_g plain g_depth zval]. lia.
  - exists E. assert (A: accepted ex_bu_g ex_bu_o E) by (split; [reflexivity|apply ex_bu_oracle|exact HE]).
    destruct (build_inv ex_bu_g ex_bu_o E eq_refl ex_bu_oracle HE) as (_ & EF & EC & ER & EK).
    split; [exact A|]. cbn [ex_bu_g plain g_F g_C g_R g_K] in *. rewrite nval_nat in *.
    repeat (split; [assumption|]).
    assert (L: leafE E = coin third 5 1 2 2).
    { unfold build in HE. apply bind_ok in HE as ([] & _ & HE). cbn [ex_bu_g plain g_struct] in HE. unfold build_bottom_up in HE.
      apply bind_ok in HE as (? & _ & HE). apply bind_ok in HE as (? & _ & HE). apply bind_ok in HE as (? & _ & HE).
      apply bind_ok in HE as (? & _ & HE). apply bind_ok in HE as (? & _ & HE). apply bind_ok in HE as (lf & Hl & HE).
      apply bind_ok in HE as (? & _ & HE). apply bind_ok in HE as (? & _ & HE).
      inversion HE. unfold leafE. cbn [e_leaf leaf_of]. cbn [ex_bu_o choices o_leaf] in Hl.
      unfold ex_bu_g, plain in Hl. cbn [g_F g_C g_L g_R] in Hl. rewrite !nval_nat in Hl. inversion Hl. reflexivity. }
    rewrite L. split; [apply coin_discrete; apply third_ok|]. split; [reflexivity|].
    destruct (build_inv _ _ E (ac_card _ _ _ A) (ac_oracle _ _ _ A) (ac_build _ _ _ A)) as (HO & _). rewrite <- (eo_lL E HO). fold (leafE E). rewrite L. reflexivity.
Qed.
