(** Networks on which sampling and likelihood disagree. *)
From Coq Require Import List Arith Lia Bool ZArith Reals Lra Permutation.
Import ListNotations.
From Verif Require Import RefSample RefLaw RefLeafS RefMpe Base RSum Num Tensor Prob Layers Circuit Net RefFwd Leaf Perm RefLeaf RefLeafS TypeChecks Einet RefNet RefEinet RefEinetS RefScopes Build RefBuild Spec RefSpec RefSpecS Ex.
Local Open Scope R_scope.

Definition zero_logits : list nat -> num := fun _ => Fin 0.
Lemma plain_build (o : oracle nat) F C S L Rn K d drop t s : (2 <= F)%nat -> (1 <= C)%nat -> (1 <= S)%nat -> (1 <= L)%nat -> (1 <= Rn)%nat -> (1 <= K)%nat ->
  0 <= drop < 1 -> t <> TOtherLayer -> s <> SOther -> (s = SBottomUp -> t = TLinsum) -> (2 ^ d <= F)%nat ->
  let g := plain F C S L Rn K d drop t s in
  build g o = match s with STopDown => build_top_down g o | SBottomUp => build_bottom_up g o | SOther => Err ValueErr end.
Proof. intros. unfold build. unfold g. rewrite plain_valid by auto. cbn [bind]. reflexivity. Qed.

Lemma wsoft_zero n k : (0 < n)%nat -> wsoft n 1 (fun _ => Fin 0) k = / INR n.
Proof.
  intros Hn. unfold wsoft, rsoftmax. cbn [toR]. replace (0 / 1) with 0 by field. rewrite exp_0, rsum_const. field. apply not_0_INR. lia.
Qed.

(** * One repetition: 4 features in 2 groups *)
Definition bad1_g : config := plain 4 1 1 2 1 1 1 0 TEinsum STopDown.
Definition bad1_p (key : list nat) : R :=
  match key with [_; f; l; _] => if (f <? 2)%nat then (if (l =? 0)%nat then 3/4 else 1/4) else 1/2 | _ => 1/2 end.
Definition bad1_o : oracle nat :=
  mkOracle (fun _ => zero_logits) zero_logits zero_logits zero_logits [2; 2]%nat (fun _ => [0; 1; 2; 3]%nat) (fun F C L R => Ok (coin bad1_p F C L R)).
Definition bad1 : einet nat :=
  mkE 4 1 2 1 1 (LSimple (coin bad1_p 4 1 2 1) 2 [0; 1; 2; 3]%nat (argsort [0; 1; 2; 3]%nat)) None
    [LEin (mkL 2 2 1 1 (mkT [1; 1; 1; 2; 2]%nat zero_logits))] None None.
Lemma bad1_p_ok key : 0 < bad1_p key < 1.
Proof. unfold bad1_p. destruct key as [|? [|f [|l [|? [|]]]]]; try lra. destruct (f <? 2)%nat, (l =? 0)%nat; lra. Qed.
Lemma bad1_accepted : accepted bad1_g bad1_o bad1.
Proof.
  split; [reflexivity| |].
  - split; try (intros; reflexivity).
    + intros r Hr. unfold perm_len, groups_of. cbn [bad1_g plain g_struct g_R g_F g_depth]. rewrite !nval_nat. apply Permutation_refl.
    + eexists. split; [reflexivity|]. split; [apply coin_ok|]. repeat split.
  - unfold bad1_g. rewrite plain_build by (try lia; try lra; try congruence; simpl; lia).
    unfold build_top_down. cbn [plain g_depth g_F g_C g_L g_R g_K g_S g_layer g_struct g_drop]. rewrite !nval_nat.
    cbn [seq mapM]. unfold top_layer. cbn [g_depth g_layer g_S g_L g_K g_R g_drop plain]. rewrite !nval_nat. cbn [Nat.ltb Nat.leb Nat.eqb].
    unfold new_intermediate. rewrite new_layer_ok; [|simpl; lia..|apply no_drop_ok]. cbn [bind zval Z.of_nat Z.eqb rev app].
    cbn [layer_nf nf]. unfold build_input, build_mixing, build_root. cbn [g_F g_C g_L g_R g_K plain]. rewrite !nval_nat. reflexivity.
Qed.


Lemma coin_pdf p F C L Rn c f l r : 0 < p [c; f; l; r] -> pdf (coin p F C L Rn) c f l r 0%nat = p [c; f; l; r].
Proof. intros H. unfold pdf, coin. cbn [lf_logp Nat.eqb toR]. apply exp_ln; auto. Qed.
Lemma coin_pdf1 p F C L Rn c f l r : p [c; f; l; r] < 1 -> pdf (coin p F C L Rn) c f l r 1%nat = 1 - p [c; f; l; r].
Proof. intros H. unfold pdf, coin. cbn [lf_logp Nat.eqb toR]. apply exp_ln; lra. Qed.
Definition zeros : nat -> nat -> nat := fun _ _ => 0%nat.
(** sample(num_samples=1) *)
Definition sample1 : sargs := @mkArgs nat (Some 1%nat) CNone None false false 1 None.

(** The data point 0000 has likelihood 5/64, but is sampled with probability 4/64. *)
Lemma bad1_lik : lik bad1 (one_row 1 4 zeros) None 0 0 = 5/64.
Proof.
  pose proof (accepted_ok _ _ _ bad1_accepted) as HE.
  pose proof (lik_one_row bad1 HE 2 (coin_discrete _ 4 1 2 1 bad1_p_ok) zeros 0) as H.
  cbn [bad1 e_C e_F e_K] in H. rewrite H by (intros; unfold zeros; lia). clear H.
  unfold neteval, fnet, net_with, emix. cbn [bad1 e_C e_F e_K e_L e_R e_leaf e_mixing e_layers nR nmix nls layers_us layer_us app evals fold_left].
  unfold ueval, uprod. cbn [einsum_u uK uW ukids usel sin]. unfold einsum_w. cbn [logits get sin zero_logits].
  change (2 * 2)%nat with 4%nat. repeat rewrite rsum_S. rewrite !rsum_0. unfold zero_logits. rewrite !wsoft_zero by lia.
  unfold leafval. cbn [nF nC ngroup fgrp e_leaf e_F]. unfold simple_grp. cbn.
  unfold zeros. rewrite !coin_pdf by apply bad1_p_ok. unfold bad1_p. cbn. field.
Qed.
Lemma bad1_sample : Pr 2 (leafE bad1) (sample bad1 sample1) (rows_are 1 1 4 (fun _ => zeros)) = 4/64.
Proof.
  pose proof (accepted_ok _ _ _ bad1_accepted) as HE.
  pose proof (sample_rows_snet bad1 HE 2 (coin_discrete _ 4 1 2 1 bad1_p_ok) eq_refl sample1 eq_refl I eq_refl Nat.lt_0_1 eq_refl eq_refl R1_neq_R0 (fun _ => zeros)) as H.
  cbn [sample1 num_samples a_ev a_n bad1 e_C e_F e_K leafE leaf_of e_leaf a_tsum] in H. unfold leafE. cbn [bad1 e_leaf leaf_of].
  rewrite H by (intros; unfold zeros; lia). clear H.
  repeat rewrite rprod_S. rewrite rprod_0. unfold cweight. cbn [e_K Nat.ltb Nat.leb]. repeat rewrite rsum_S. rewrite rsum_0.
  unfold neteval, snet, net_with, emix. cbn [bad1 e_C e_F e_K e_L e_R e_leaf e_mixing e_layers nR nmix nls layers_us layer_us app evals fold_left].
  unfold ueval, uprod. cbn [einsum_u uK uW ukids usel sin]. unfold einsum_w. cbn [logits get sin zero_logits].
  change (2 * 2)%nat with 4%nat. repeat rewrite rsum_S. rewrite !rsum_0. unfold zero_logits. rewrite !wsoft_zero by lia.
  unfold leafval. cbn [nF nC ngroup sgrp e_leaf e_F]. unfold simple_sgrp. cbn.
  unfold zeros. rewrite !coin_pdf by apply bad1_p_ok. unfold bad1_p. cbn. field.
Qed.

(** * Two repetitions: 2 features in 2 groups *)
(** Logit ln 3 for the pair (0, 1) in the class [o] for which [b o] holds, 0 elsewhere. *)
Definition pair_logits (b : nat -> bool) (idx : list nat) : num :=
  match idx with [_; o; _; i; j] => if b o && (i =? 0)%nat && (j =? 1)%nat then Fin (ln 3) else Fin 0 | _ => Fin 0 end.
Lemma pair_w b o r k : (k < 4)%nat ->
  wsoft 4 1 (fun k => pair_logits b [0; o; r; k / 2; k mod 2]%nat) k = if b o then (if (k =? 1)%nat then 1/2 else 1/6) else 1/4.
Proof.
  intros Hk. unfold wsoft, rsoftmax. repeat rewrite rsum_S. rewrite rsum_0. cbn [pair_logits].
  change (0 / 2)%nat with 0%nat. change (1 / 2)%nat with 0%nat. change (2 / 2)%nat with 1%nat. change (3 / 2)%nat with 1%nat.
  change (0 mod 2)%nat with 0%nat. change (1 mod 2)%nat with 1%nat. change (2 mod 2)%nat with 0%nat. change (3 mod 2)%nat with 1%nat.
  destruct (b o); cbn [andb Nat.eqb toR]; replace (ln 3 / 1) with (ln 3) by field; replace (0 / 1) with 0 by field; rewrite ?exp_ln by lra; rewrite ?exp_0;
  (destruct k as [|[|[|[|]]]]; [| | | |lia]);
  repeat match goal with |- context [(?n / 2)%nat] => let m := eval cbv in (n / 2)%nat in change (n / 2)%nat with m end;
  repeat match goal with |- context [(?n mod 2)%nat] => let m := eval cbv in (n mod 2)%nat in change (n mod 2)%nat with m end;
  cbn [andb Nat.eqb toR]; replace (ln 3 / 1) with (ln 3) by field; replace (0 / 1) with 0 by field; rewrite ?exp_ln by lra; rewrite ?exp_0; field.
Qed.
Lemma pair_logits_fin b idx : isfin (pair_logits b idx) = true.
Proof. unfold pair_logits. destruct idx as [|? [|? [|? [|? [|? [|]]]]]]; auto. destruct (_ && _); auto. Qed.

Definition bad2_g : config := plain 2 1 1 2 2 1 1 0 TEinsum STopDown.
Definition bad2_p (key : list nat) : R :=
  match key with [_; f; l; _] => if (f <? 1)%nat then (if (l =? 0)%nat then 3/4 else 1/4) else 1/2 | _ => 1/2 end.
Definition bad2_perm (r : nat) : list nat := if (r =? 0)%nat then [0; 1]%nat else [1; 0]%nat.
Definition bad2_o : oracle nat :=
  mkOracle (fun _ => pair_logits (fun _ => true)) zero_logits zero_logits zero_logits [1; 1]%nat bad2_perm (fun F C L R => Ok (coin bad2_p F C L R)).
Definition bad2 : einet nat :=
  mkE 2 1 2 2 1 (LFact (coin bad2_p 2 1 2 2) 2 (make_scopes 2 2 2 [1; 1]%nat bad2_perm)) None
    [LEin (mkL 2 2 1 2 (mkT [1; 1; 2; 2; 2]%nat (pair_logits (fun _ => true))))]
    (Some (mkL 1 2 1 1 (mkT [1; 1; 2]%nat zero_logits))) None.
Lemma bad2_p_ok key : 0 < bad2_p key < 1.
Proof. unfold bad2_p. destruct key as [|? [|f [|l [|? [|]]]]]; try lra. destruct (f <? 1)%nat, (l =? 0)%nat; lra. Qed.
Lemma zero_drop_ok : drop_ok (VFloat (Fin 0)).
Proof. exists 0. split; [constructor|lra]. Qed.
Lemma bad2_accepted : accepted bad2_g bad2_o bad2.
Proof.
  split; [reflexivity| |].
  - split; try (intros; reflexivity).
    + intros; apply pair_logits_fin.
    + intros r Hr. unfold perm_len, groups_of. cbn [bad2_g plain g_struct g_R g_F g_depth]. rewrite !nval_nat. cbn [Nat.eqb].
      cbn [bad2_o o_perm]. unfold bad2_perm. destruct (r =? 0)%nat; perms.
    + eexists. split; [reflexivity|]. split; [apply coin_ok|]. repeat split.
  - unfold bad2_g. rewrite plain_build by (try lia; try lra; try congruence; simpl; lia).
    unfold build_top_down. cbn [plain g_depth g_F g_C g_L g_R g_K g_S g_layer g_struct g_drop]. rewrite !nval_nat.
    cbn [seq mapM]. unfold top_layer. cbn [g_depth g_layer g_S g_L g_K g_R g_drop plain]. rewrite !nval_nat. cbn [Nat.ltb Nat.leb Nat.eqb].
    unfold new_intermediate. rewrite new_layer_ok; [|simpl; lia..|apply no_drop_ok]. cbn [bind zval Z.of_nat Z.eqb rev app].
    cbn [layer_nf nf]. unfold build_input, build_mixing, build_root. cbn [g_F g_C g_L g_R g_K g_drop plain]. rewrite !nval_nat.
    cbn [Nat.ltb Nat.leb Nat.eqb]. rewrite new_layer_ok; [|lia..|apply zero_drop_ok]. reflexivity.
Qed.
Lemma bad2_lik : lik bad2 (one_row 1 2 zeros) None 0 0 = 7/24.
Proof.
  pose proof (accepted_ok _ _ _ bad2_accepted) as HE.
  pose proof (lik_one_row bad2 HE 2 (coin_discrete _ 2 1 2 2 bad2_p_ok) zeros 0) as H.
  cbn [bad2 e_C e_F e_K] in H. rewrite H by (intros; unfold zeros; lia). clear H.
  unfold neteval, fnet, net_with, emix. cbn [bad2 e_C e_F e_K e_L e_R e_leaf e_mixing e_layers nR nmix nls layers_us layer_us app evals fold_left].
  unfold ueval, uprod. cbn [einsum_u uK uW ukids usel sin]. unfold einsum_w, mixing_w. cbn [logits get sin zero_logits Nat.ltb Nat.leb].
  change (2 * 2)%nat with 4%nat. repeat rewrite rsum_S. rewrite !rsum_0. unfold zero_logits. rewrite !wsoft_zero by lia. rewrite !pair_w by lia.
  unfold leafval. cbn [nF nC ngroup fgrp e_leaf e_F]. unfold fact_grp. cbn.
  unfold zeros. rewrite !coin_pdf by apply bad2_p_ok. unfold bad2_p. cbn. field.
Qed.
Lemma bad2_sample : Pr 2 (leafE bad2) (sample bad2 sample1) (rows_are 1 1 2 (fun _ => zeros)) = 6/24.
Proof.
  pose proof (accepted_ok _ _ _ bad2_accepted) as HE.
  pose proof (sample_rows_snet bad2 HE 2 (coin_discrete _ 2 1 2 2 bad2_p_ok) eq_refl sample1 eq_refl I eq_refl Nat.lt_0_1 eq_refl eq_refl R1_neq_R0 (fun _ => zeros)) as H.
  cbn [sample1 num_samples a_ev a_n bad2 e_C e_F e_K leafE leaf_of e_leaf a_tsum] in H. unfold leafE. cbn [bad2 e_leaf leaf_of].
  rewrite H by (intros; unfold zeros; lia). clear H.
  repeat rewrite rprod_S. rewrite rprod_0. unfold cweight. cbn [e_K Nat.ltb Nat.leb]. repeat rewrite rsum_S. rewrite rsum_0.
  unfold neteval, snet, net_with, emix. cbn [bad2 e_C e_F e_K e_L e_R e_leaf e_mixing e_layers nR nmix nls layers_us layer_us app evals fold_left].
  unfold ueval, uprod. cbn [einsum_u uK uW ukids usel sin]. unfold einsum_w, mixing_w. cbn [logits get sin zero_logits Nat.ltb Nat.leb].
  change (2 * 2)%nat with 4%nat. repeat rewrite rsum_S. rewrite !rsum_0. unfold zero_logits. rewrite !wsoft_zero by lia. rewrite !pair_w by lia.
  unfold leafval. cbn [nF nC ngroup sgrp e_leaf e_F]. cbn.
  unfold zeros. rewrite !coin_pdf by apply bad2_p_ok. unfold bad2_p. cbn. field.
Qed.

(** * Two classes: sampling uses a class prior of its own *)
Definition bad3_g : config := plain 2 1 1 2 1 2 1 0 TEinsum STopDown.
Definition bad3_p (key : list nat) : R :=
  match key with [_; f; l; _] => if (l =? 0)%nat then 3/4 else 1/4 | _ => 1/2 end.
Definition bad3_root (idx : list nat) : num := match idx with [_; k; _; _] => if (k =? 1)%nat then Fin (ln 3) else Fin 0 | _ => Fin 0 end.
Definition bad3_o : oracle nat :=
  mkOracle (fun _ => pair_logits (fun o => (o =? 1)%nat)) zero_logits zero_logits bad3_root [1; 1]%nat (fun _ => [0; 1]%nat) (fun F C L R => Ok (coin bad3_p F C L R)).
Definition bad3 : einet nat :=
  mkE 2 1 2 1 2 (LSimple (coin bad3_p 2 1 2 1) 2 [0; 1]%nat (argsort [0; 1]%nat)) None
    [LEin (mkL 2 2 2 1 (mkT [1; 2; 1; 2; 2]%nat (pair_logits (fun o => (o =? 1)%nat))))] None
    (Some (mkL 1 2 1 1 (mkT [1; 2; 1; 1]%nat bad3_root))).
Lemma bad3_p_ok key : 0 < bad3_p key < 1.
Proof. unfold bad3_p. destruct key as [|? [|f [|l [|? [|]]]]]; try lra. destruct (l =? 0)%nat; lra. Qed.
Lemma bad3_accepted : accepted bad3_g bad3_o bad3.
Proof.
  split; [reflexivity| |].
  - split; try (intros; reflexivity).
    + intros; apply pair_logits_fin.
    + intros idx. cbn. unfold bad3_root. destruct idx as [|? [|k [|? [|? [|]]]]]; auto. destruct (k =? 1)%nat; auto.
    + intros r Hr. unfold perm_len, groups_of. cbn [bad3_g plain g_struct g_R g_F g_depth]. rewrite !nval_nat. cbn [Nat.eqb]. apply Permutation_refl.
    + eexists. split; [reflexivity|]. split; [apply coin_ok|]. repeat split.
  - unfold bad3_g. rewrite plain_build by (try lia; try lra; try congruence; simpl; lia).
    unfold build_top_down. cbn [plain g_depth g_F g_C g_L g_R g_K g_S g_layer g_struct g_drop]. rewrite !nval_nat.
    cbn [seq mapM]. unfold top_layer. cbn [g_depth g_layer g_S g_L g_K g_R g_drop plain]. rewrite !nval_nat. cbn [Nat.ltb Nat.leb Nat.eqb].
    unfold new_intermediate. rewrite new_layer_ok; [|simpl; lia..|apply no_drop_ok]. cbn [bind zval Z.of_nat Z.eqb rev app].
    cbn [layer_nf nf]. unfold build_input, build_mixing, build_root. cbn [g_F g_C g_L g_R g_K g_drop plain]. rewrite !nval_nat.
    cbn [Nat.ltb Nat.leb Nat.eqb bind o_leaf bad3_o]. rewrite new_layer_ok; [|lia..|apply no_drop_ok]. reflexivity.
Qed.
Lemma bad3_root_w y : (y < 2)%nat -> wroot bad3 1 y = if (y =? 1)%nat then 3/4 else 1/4.
Proof.
  intros Hy. unfold wroot, wsoft, rsoftmax. cbn [bad3 e_root e_K logits get]. repeat rewrite rsum_S. rewrite rsum_0.
  destruct y as [|[|]]; [| |lia]; cbn [bad3_root Nat.eqb toR]; replace (ln 3 / 1) with (ln 3) by field; replace (0 / 1) with 0 by field; rewrite exp_ln by lra; rewrite exp_0; field.
Qed.

Ltac bad3_eval :=
  unfold neteval, fnet, net_with, emix; cbn [bad3 e_C e_F e_K e_L e_R e_leaf e_mixing e_layers nR nmix nls layers_us layer_us app evals fold_left];
  unfold ueval, uprod; cbn [einsum_u uK uW ukids usel sin]; unfold einsum_w; cbn [logits get sin];
  change (2 * 2)%nat with 4%nat; repeat rewrite rsum_S; rewrite !rsum_0; rewrite !pair_w by lia;
  unfold leafval; cbn [nF nC ngroup fgrp e_leaf e_F]; unfold simple_grp; cbn.
Lemma bad3_lik y : (y < 2)%nat -> lik bad3 (one_row 1 2 zeros) None 0 y = if (y =? 0)%nat then 1/4 else 11/48.
Proof.
  intros Hy. pose proof (accepted_ok _ _ _ bad3_accepted) as HE.
  pose proof (lik_one_row bad3 HE 2 (coin_discrete _ 2 1 2 1 bad3_p_ok) zeros y) as H.
  cbn [bad3 e_C e_F e_K] in H. rewrite H by (auto; intros; unfold zeros; lia). clear H.
  destruct y as [|[|]]; [| |lia]; bad3_eval; unfold zeros; rewrite !coin_pdf by apply bad3_p_ok; unfold bad3_p; cbn; field.
Qed.
(** Feature 0 is observed to be 0. *)
Definition half_row : tensor (option nat) := mkT [1; 1; 2]%nat (fun idx => if (nth 2 idx 0 =? 0)%nat then Some 0%nat else None).
Lemma half_row_batch : batch bad3 1 half_row.
Proof.
  split; [right; left; reflexivity|]. intros n c f v Hn Hc Hf. unfold entry, half_row. cbn. destruct (f =? 0)%nat; [|discriminate].
  intros H. inversion H; subst. reflexivity.
Qed.
Lemma bad3_lik_half y : (y < 2)%nat -> lik bad3 half_row None 0 y = if (y =? 0)%nat then 1/2 else 7/12.
Proof.
  intros Hy. pose proof (accepted_ok _ _ _ bad3_accepted) as HE.
  rewrite (lik_eval bad3 HE 1 half_row None 0 y); [|apply batch_input, half_row_batch|lia|exact Hy].
  destruct y as [|[|]]; [| |lia]; bad3_eval; rewrite !coin_pdf by apply bad3_p_ok; unfold bad3_p; cbn; field.
Qed.
Lemma bad3_agree : groups_agree bad3.
Proof.
  apply (groups_agree_build bad3_g bad3_o); [reflexivity|apply bad3_accepted|apply bad3_accepted|].
  unfold consistent, bad3_g, plain. cbn [g_struct g_R g_F g_depth]. rewrite !nval_nat. cbn. right. reflexivity.
Qed.
Lemma bad3_free : Pr 2 (leafE bad3) (sample bad3 sample1) (rows_are 1 1 2 (fun _ => zeros)) = 15/64.
Proof.
  pose proof (accepted_ok _ _ _ bad3_accepted) as HE.
  pose proof (sample_rows_prob bad3 HE 2 (coin_discrete _ 2 1 2 1 bad3_p_ok) eq_refl sample1 eq_refl I eq_refl Nat.lt_0_1 eq_refl eq_refl eq_refl bad3_agree (fun _ => zeros)) as H.
  change (num_samples sample1) with 1%nat in H. change (e_C bad3) with 1%nat in H. change (e_F bad3) with 2%nat in H. change (e_K bad3) with 2%nat in H.
  unfold leafE. cbn [bad3 e_leaf leaf_of]. cbn [bad3 e_leaf leaf_of leafE] in H. unfold leafE in H. cbn [bad3 e_leaf leaf_of] in H.
  rewrite H by (intros; unfold zeros; lia). clear H.
  rewrite !rprod_S, rprod_0, !rsum_S, rsum_0. fold bad3. unfold cweight. change (Nat.ltb 1 (e_K bad3)) with true. cbn [a_class sample1 a_tsum].
  rewrite !bad3_root_w by lia. rewrite !bad3_lik by lia. cbn [Nat.eqb]. field.
Qed.
Definition sample_half : sargs (V := nat) := mkArgs None CNone (Some half_row) false false 1 None.
Lemma bad3_given : Pr 2 (leafE bad3) (sample bad3 sample_half) (rows_are 1 1 2 (fun _ => zeros)) = 47/112.
Proof.
  pose proof (accepted_ok _ _ _ bad3_accepted) as HE.
  pose proof (sample_evidence_prob bad3 HE 2 (coin_discrete _ 2 1 2 1 bad3_p_ok) eq_refl sample_half half_row eq_refl eq_refl
    (batch_input _ _ _ half_row_batch) Nat.lt_0_1 eq_refl eq_refl eq_refl bad3_agree (fun _ => zeros)) as H.
  change (num_samples sample_half) with 1%nat in H. change (e_C bad3) with 1%nat in H. change (e_F bad3) with 2%nat in H. change (e_K bad3) with 2%nat in H.
  unfold leafE in *. cbn [bad3 e_leaf leaf_of] in *.
  rewrite H by (intros; unfold zeros; lia). clear H.
  rewrite !rprod_S, rprod_0, !rsum_S, rsum_0. fold bad3. unfold cweight. change (Nat.ltb 1 (e_K bad3)) with true. cbn [a_class sample_half a_tsum a_ms].
  change (agrees_with bad3 (row half_row None 0) zeros) with true. cbn iota.
  rewrite !bad3_root_w by lia. rewrite !bad3_lik by lia. rewrite !bad3_lik_half by lia. cbn [Nat.eqb]. field.
Qed.

(** * The most probable completion: mpe() follows the largest weight at every step *)
Definition bad4_g : config := plain 2 1 1 2 1 1 1 0 TEinsum STopDown.
Definition bad4_p (key : list nat) : R :=
  match key with [_; f; l; _] => if (f =? 0)%nat then (if (l =? 0)%nat then 11/20 else 1/20) else 3/4 | _ => 1/2 end.
Definition bad4_o : oracle nat :=
  mkOracle (fun _ => pair_logits (fun _ => true)) zero_logits zero_logits zero_logits [1; 1]%nat (fun _ => [0; 1]%nat) (fun F C L R => Ok (coin bad4_p F C L R)).
Definition bad4_L : slay := mkL 2 2 1 1 (mkT [1; 1; 1; 2; 2]%nat (pair_logits (fun _ => true))).
Definition bad4 : einet nat :=
  mkE 2 1 2 1 1 (LSimple (coin bad4_p 2 1 2 1) 2 [0; 1]%nat (argsort [0; 1]%nat)) None [LEin bad4_L] None None.
Lemma bad4_p_ok key : 0 < bad4_p key < 1.
Proof. unfold bad4_p. destruct key as [|? [|f [|l [|? [|]]]]]; try lra. destruct (f =? 0)%nat, (l =? 0)%nat; lra. Qed.
Lemma bad4_accepted : accepted bad4_g bad4_o bad4.
Proof.
  split; [reflexivity| |].
  - split; try (intros; reflexivity).
    + intros; apply pair_logits_fin.
    + intros r Hr. unfold perm_len, groups_of. cbn [bad4_g plain g_struct g_R g_F g_depth]. rewrite !nval_nat. cbn [Nat.eqb]. apply Permutation_refl.
    + eexists. split; [reflexivity|]. split; [apply coin_ok|]. repeat split.
  - unfold bad4_g. rewrite plain_build by (try lia; try lra; try congruence; simpl; lia).
    unfold build_top_down. cbn [plain g_depth g_F g_C g_L g_R g_K g_S g_layer g_struct g_drop]. rewrite !nval_nat.
    cbn [seq mapM]. unfold top_layer. cbn [g_depth g_layer g_S g_L g_K g_R g_drop plain]. rewrite !nval_nat. cbn [Nat.ltb Nat.leb Nat.eqb].
    unfold new_intermediate. rewrite new_layer_ok; [|simpl; lia..|apply no_drop_ok]. cbn [bind zval Z.of_nat Z.eqb rev app].
    cbn [layer_nf nf]. unfold build_input, build_mixing, build_root. cbn [g_F g_C g_L g_R g_K g_drop plain]. rewrite !nval_nat.
    cbn [Nat.ltb Nat.leb Nat.eqb bind o_leaf bad4_o]. reflexivity.
Qed.
Definition mpe1 : sargs (V := nat) := mkArgs None CNone None true false 1 None.
Lemma bad4_mpe : exists t, mpe bad4 None None = Ret t /\ shape t = [1; 1; 2]%nat /\ get t [0; 0; 0]%nat = Some 0%nat /\ get t [0; 0; 1]%nat = Some 0%nat.
Proof.
  pose proof (accepted_ok _ _ _ bad4_accepted) as HE. change (mpe bad4 None None) with (sample bad4 mpe1).
  rewrite (sample_core bad4 mpe1 (no_caches bad4) eq_refl eq_refl). unfold core.
  assert (W: walk bad4 mpe1 (no_caches bad4) = einsum_sample bad4_L None (init_ctx mpe1)) by reflexivity.
  rewrite W. clear W.
  pose proof (eo_layers bad4 HE) as Hok. cbn [bad4 e_layers layers_ok layer_ok] in Hok. destruct Hok as [[Hok _] _].
  destruct (@einsum_sampler nat bad4_L 1 None vone 1 Hok Nat.lt_0_1 R1_neq_R0 (or_introl (conj eq_refl eq_refl)) (init_ctx mpe1)) as (lw & g & Ef & Hlw & Hg).
  { apply init_ctx_good; cbn; lia. }
  { reflexivity. }
  rewrite Ef. destruct (@choose_mpe nat (init_ctx mpe1) lw 1 _ _ _ eq_refl Hlw) as (kt & Ek & Sk & Gk). { cbn. lia. }
  rewrite Ek. cbn [mbind].
  assert (K1: get kt [0; 0]%nat = 1%nat).
  { destruct (Gk 0%nat 0%nat ltac:(lia)) as [B M]; [cbn; lia|]. change (uK (einsum_u bad4_L 1)) with 4%nat in *. specialize (M 1%nat ltac:(lia)).
    pose proof (einsum_u_wf 1 bad4_L 1 ltac:(cbn; lia) eq_refl) as Hw.
    rewrite !(upost_one 1) in M by (auto; cbn; lia).
    cbn [einsum_u uW] in M. unfold einsum_w in M. cbn [logits get bad4_L sin] in M.
    change (2 * 2)%nat with 4%nat in M. 
    set (k := get kt [0; 0]%nat) in *. change (get (c_out (init_ctx mpe1)) [0; 0]%nat) with 0%nat in M. change (get (c_rep (init_ctx mpe1)) [0]%nat) with 0%nat in M.
    rewrite !pair_w in M by lia. destruct k as [|[|[|[|]]]]; cbn in M; try lra; try lia. }
  destruct (Hg kt) as (i & Ei & Si & Gi); [exact Sk| |].
  { intros n d Hn Hd. apply Gk; auto. }
  rewrite Ei. cbn [mbind].
  assert (G0: get i [0; 0]%nat = 0%nat).
  { rewrite Gi by (cbn; lia). cbn [einsum_u upar usel]. change (0 / 2)%nat with 0%nat. rewrite K1. reflexivity. }
  assert (G1: get i [0; 1]%nat = 1%nat).
  { rewrite Gi by (cbn; lia). cbn [einsum_u upar usel]. change (1 / 2)%nat with 0%nat. rewrite K1. reflexivity. }
  set (c := set_out (init_ctx mpe1) i).
  assert (Gc: cgood c 1 2 2 1).
  { repeat split; auto. intros n d Hn Hd. cbn [c set_out c_out]. assert (n = 0)%nat as -> by lia. destruct d as [|[|]]; try lia; rewrite ?G0, ?G1; lia. }
  destruct (bottom_routes bad4 HE c 1 eq_refl Nat.lt_0_1 Gc) as (k & Hk & Eb). change (a_mpe mpe1 || a_mpel mpe1) with true. rewrite Eb.
  destruct (leaf_mode_prog (leaf_of (e_leaf bad4)) k c 1 2 (sgrp bad4) (fun key => if Rle_dec (1/2) (bad4_p key) then 0 else 1)%nat Gc) as (t & Et & St & Gt).
  - intros r f Hr Hf. apply (sgrp_lt bad4 HE); auto.
  - exact Hk.
  - reflexivity.
  - rewrite Et. cbn [mbind finish mpe1 a_ev]. exists (tmap Some t). split; [reflexivity|]. split; [exact St|].
    cbn [tmap get]. rewrite !Gt by (cbn; lia). cbn [c set_out c_out c_rep init_ctx mpe1].
    change (get (full [num_samples mpe1] 0) [0])%nat with 0%nat.
    change (sgrp bad4 0 0) with 0%nat. change (sgrp bad4 0 1) with 1%nat. rewrite G0, G1. unfold bad4_p. cbn [Nat.eqb].
    split; f_equal; destruct (Rle_dec _ _); auto; lra.
Qed.
Definition other (c f : nat) : nat := if (f =? 0)%nat then 1%nat else 0%nat.
Ltac bad4_eval :=
  unfold neteval, fnet, net_with, emix; cbn [bad4 e_C e_F e_K e_L e_R e_leaf e_mixing e_layers nR nmix nls layers_us layer_us app evals fold_left];
  unfold ueval, uprod; cbn [einsum_u uK uW ukids usel]; unfold einsum_w, bad4_L; cbn [logits get sin];
  change (2 * 2)%nat with 4%nat; repeat rewrite rsum_S; rewrite !rsum_0; rewrite !pair_w by lia;
  unfold leafval; cbn [nF nC ngroup fgrp e_leaf e_F]; unfold simple_grp; cbn.
Lemma bad4_lik : lik bad4 (one_row 1 2 zeros) None 0 0 = 23/80.
Proof.
  pose proof (accepted_ok _ _ _ bad4_accepted) as HE.
  pose proof (lik_one_row bad4 HE 2 (coin_discrete _ 2 1 2 1 bad4_p_ok) zeros 0) as H.
  cbn [bad4 e_C e_F e_K] in H. rewrite H by (auto; intros; unfold zeros; lia). clear H.
  bad4_eval; unfold zeros; rewrite !coin_pdf by apply bad4_p_ok; unfold bad4_p; cbn; field.
Qed.
Lemma bad4_lik_other : lik bad4 (one_row 1 2 other) None 0 0 = 37/80.
Proof.
  pose proof (accepted_ok _ _ _ bad4_accepted) as HE.
  pose proof (lik_one_row bad4 HE 2 (coin_discrete _ 2 1 2 1 bad4_p_ok) other 0) as H.
  cbn [bad4 e_C e_F e_K] in H. rewrite H by (auto; intros; unfold other; destruct (f =? 0)%nat; lia). clear H.
  bad4_eval; unfold other; cbn [Nat.eqb]; rewrite !coin_pdf, !coin_pdf1 by apply bad4_p_ok; unfold bad4_p; cbn; field.
Qed.
