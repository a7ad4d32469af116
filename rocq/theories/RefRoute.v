(** The network that sampling walks: the same parameters with features assigned to the bottom groups as the sampling code does. *)
From Coq Require Import List Arith Lia Bool ZArith Reals Lra Permutation.
Import ListNotations.
From Verif Require Import Base RSum Num Tensor Prob Layers Circuit Net RefFwd RefSample RefLaw Leaf Perm RefLeaf RefLeafS TypeChecks Einet RefNet RefEinet RefEinetS RefScopes Build RefBuild RefMore Spec RefSpec RefSpecS Density RefDensity RefDensityS.
Local Arguments Nat.div : simpl never.
Local Arguments Nat.modulo : simpl never.
Local Arguments Nat.sub : simpl never.
Local Arguments Nat.mul : simpl never.
Local Arguments Nat.add : simpl never.
Local Arguments Nat.pow : simpl never.

(** * Transposing a permutation *)
Definition transposed (card Fo : nat) (l : list nat) : list nat := map (fun p => (p mod Fo) * card + p / Fo) l.
Lemma transposed_lt card Fo p : 0 < Fo -> p < card * Fo -> (p mod Fo) * card + p / Fo < card * Fo.
Proof.
  intros H Hp. pose proof (Nat.mod_upper_bound p Fo ltac:(lia)). assert (p / Fo < card) by (apply Nat.div_lt_upper_bound; lia).
  assert ((p mod Fo + 1) * card <= Fo * card) by (apply Nat.mul_le_mono_r; lia). lia.
Qed.
Lemma transposed_div card Fo p : 0 < Fo -> p < card * Fo -> ((p mod Fo) * card + p / Fo) / card = p mod Fo.
Proof.
  intros H Hp. assert (p / Fo < card) by (apply Nat.div_lt_upper_bound; lia).
  rewrite Nat.div_add_l by lia. rewrite (Nat.div_small (p / Fo)) by lia. lia.
Qed.
Lemma transposed_mod card Fo p : 0 < Fo -> p < card * Fo -> ((p mod Fo) * card + p / Fo) mod card = p / Fo.
Proof.
  intros H Hp. assert (p / Fo < card) by (apply Nat.div_lt_upper_bound; lia).
  rewrite Nat.add_comm, Nat.mod_add by lia. apply Nat.mod_small; auto.
Qed.
Lemma transposed_perm card Fo l : 0 < Fo -> is_perm l (card * Fo) -> is_perm (transposed card Fo l) (card * Fo).
Proof.
  intros H Hl. pose proof (is_perm_length _ _ Hl) as Len.
  assert (Hlt: forall i, i < card * Fo -> nth i l 0 < card * Fo) by (intros; apply is_perm_lt; auto).
  assert (Hn: forall i, i < card * Fo -> nth i (transposed card Fo l) 0 = (nth i l 0 mod Fo) * card + nth i l 0 / Fo).
  { intros i Hi. unfold transposed.
    rewrite (nth_indep _ 0 ((fun p => (p mod Fo) * card + p / Fo) 0)) by (rewrite map_length; lia). apply map_nth with (f := fun p => (p mod Fo) * card + p / Fo). }
  apply NoDup_Permutation_bis.
  - apply (NoDup_nth _ 0). unfold transposed at 1 2. rewrite map_length, Len. intros i j Hi Hj E. rewrite !Hn in E by auto.
    pose proof (transposed_div card Fo _ H (Hlt i Hi)) as D1. pose proof (transposed_div card Fo _ H (Hlt j Hj)) as D2.
    pose proof (transposed_mod card Fo _ H (Hlt i Hi)) as M1. pose proof (transposed_mod card Fo _ H (Hlt j Hj)) as M2.
    apply (is_perm_inj l (card * Fo)); auto.
    rewrite (Nat.div_mod (nth i l 0) Fo), (Nat.div_mod (nth j l 0) Fo) by lia. rewrite E in D1, M1. congruence.
  - unfold transposed. rewrite map_length, seq_length. lia.
  - intros v Hv. apply In_nth with (d := 0) in Hv as (i & Hi & <-). unfold transposed in Hi. rewrite map_length, Len in Hi.
    rewrite Hn by auto. apply in_seq. split; [lia|]. apply transposed_lt; auto.
Qed.
Lemma argsort_argsort l n k : is_perm l n -> k < n -> nth k (argsort (argsort l)) 0 = nth k l 0.
Proof.
  intros H Hk. pose proof (argsort_perm l n H) as H'.
  destruct (argsort_nth _ _ k H' Hk) as [A B].
  apply (is_perm_inj _ _ _ _ H' A); [apply is_perm_lt; auto|]. rewrite B. symmetry. apply (argsort_left l n); auto.
Qed.

(** * Same parameters *)
(** Everything but the assignment of features to the groups at the bottom. *)
Definition same_parameters {V} (E E' : einet V) : Prop :=
  e_F E' = e_F E /\ e_C E' = e_C E /\ e_L E' = e_L E /\ e_R E' = e_R E /\ e_K E' = e_K E /\
  leafE E' = leafE E /\ e_layers E' = e_layers E /\ e_mixing E' = e_mixing E /\ e_root E' = e_root E.
Definition with_perm {V} (o : oracle V) (p : nat -> list nat) : oracle V :=
  mkOracle (o_logits o) (o_top o) (o_mix o) (o_root o) (o_sizes o) p (o_leaf o).

Section Route.
Context {V : Type}.
Variables (g : config) (o : oracle V) (E : einet V).
Hypothesis HA : accepted g o E.
Let HE : einet_ok E := accepted_ok g o E HA.

Lemma same_refl : same_parameters E E.
Proof. repeat split. Qed.
Lemma sizes : sizes_ok g.
Proof. pose proof (ac_build _ _ _ HA) as H'. unfold build in H'. apply bind_ok in H' as ([] & Ha & _). apply (assert_valid_inv g Ha (ac_card _ _ _ HA)). Qed.

(** What sampling walks. *)
Record walks (E' : einet V) : Prop := {
  wk_same : same_parameters E E';
  wk_ok : einet_ok E';
  wk_out : leaf_out E' = leaf_out E;
  wk_grp : forall r f, r < e_R E -> f < e_F E -> fgrp E' r f = sgrp E r f }.

Lemma walks_self : groups_agree E -> walks E.
Proof. intros H. split; auto using same_refl. intros r f Hr Hf. symmetry. apply H; auto. Qed.

(** One repetition: the constructor with another random permutation. *)
Lemma rebuild p : e_R E = 1 -> g_struct g = STopDown ->
  build g (with_perm o p) = Ok (mkE (e_F E) (e_C E) (e_L E) (e_R E) (e_K E) (LSimple (leafE E) (leaf_out E) (p 0) (argsort (p 0))) None (e_layers E) (e_mixing E) (e_root E)).
Proof.
  intros HR Hst. pose proof (ac_build _ _ _ HA) as H. destruct (build_inv g o E (ac_card _ _ _ HA) (ac_oracle _ _ _ HA) H) as (_ & _ & _ & ER & _).
  unfold build in *. apply bind_ok in H as ([] & Ha & H). rewrite Ha. cbn [bind]. rewrite Hst in *.
  unfold build_top_down in *. apply bind_ok in H as (ls0 & H0 & H). apply bind_ok in H as (ls & H1 & H). apply bind_ok in H as (l & H2 & H).
  apply bind_ok in H as (leaf & H3 & H). apply bind_ok in H as (m & H4 & H). apply bind_ok in H as (r & H5 & H).
  change (mapM (top_layer g (with_perm o p)) (seq 1 (nval (g_depth g)))) with (mapM (top_layer g o) (seq 1 (nval (g_depth g)))).
  rewrite H0. cbn [bind with_perm o_logits]. rewrite H1. cbn [bind]. rewrite H2. cbn [bind].
  unfold build_input in *. cbn [with_perm o_leaf o_perm o_sizes]. apply bind_ok in H3 as (lf & Elf & H3). rewrite Elf. cbn [bind].
  rewrite <- ER in *. rewrite HR in *. cbn [Nat.eqb] in *. inversion H3; subst leaf.
  change (build_mixing g (with_perm o p)) with (build_mixing g o). rewrite H4. cbn [bind].
  change (build_root g (with_perm o p)) with (build_root g o). rewrite H5. cbn [bind].
  inversion H; subst E. cbn [e_F e_C e_L e_R e_K e_leaf e_layers e_mixing e_root leaf_out leafE leaf_of] in *. rewrite ER. reflexivity.
Qed.

Theorem walks_single : g_struct g = STopDown -> e_R E = 1 ->
  exists p E', accepted g (with_perm o p) E' /\ walks E'.
Proof.
  intros Hst HR. pose proof (ac_build _ _ _ HA) as H. destruct (build_inv g o E (ac_card _ _ _ HA) (ac_oracle _ _ _ HA) H) as (_ & EF & _ & ER & _).
  destruct (build_input_layer g o E (ac_oracle _ _ _ HA) sizes Hst H) as (lf & El).
  rewrite <- ER, HR in El. cbn [Nat.eqb] in El.
  set (Fo := 2 ^ nval (g_depth g)) in *. assert (HFo: 0 < Fo) by apply pow2_pos.
  set (F := nval (g_F g)) in *. set (pl := o_perm o 0) in *.
  pose proof (ok_perm _ _ (ac_oracle _ _ _ HA) 0) as Hp. rewrite <- ER, HR in Hp. specialize (Hp Nat.lt_0_1).
  assert (PL: perm_len g = simple_card F Fo * Fo).
  { rewrite <- simple_total by auto. unfold perm_len, groups_of. rewrite Hst, <- ER, HR. reflexivity. }
  fold pl in Hp. rewrite PL in Hp.
  set (L' := transposed (simple_card F Fo) Fo (argsort pl)).
  assert (HL: is_perm L' (simple_card F Fo * Fo)) by (apply transposed_perm; auto; apply argsort_perm; auto).
  set (p := fun _ : nat => argsort L'). 
  pose (E1 := mkE (e_F E) (e_C E) (e_L E) (e_R E) (e_K E) (LSimple (leafE E) (leaf_out E) (p 0) (argsort (p 0))) None (e_layers E) (e_mixing E) (e_root E)).
  exists p, E1. assert (A: accepted g (with_perm o p) E1).
  { split; [apply HA| |apply rebuild; auto]. destruct (ac_oracle _ _ _ HA). split; auto. intros r Hr. cbn [with_perm o_perm]. unfold p.
    rewrite PL. apply argsort_perm; auto. }
  split; [exact A|]. assert (Lo: leaf_out E = Fo) by (unfold leaf_out; rewrite El; auto). split.
  - repeat split.
  - apply (accepted_ok _ _ _ A).
  - reflexivity.
  - intros r f Hr Hf. unfold fgrp, sgrp. cbn [E1 e_leaf e_F]. rewrite El, Lo. unfold simple_grp, simple_sgrp, p. rewrite EF. fold F.
    rewrite EF in Hf. fold F in Hf. assert (Hf': f < simple_card F Fo * Fo) by (rewrite <- simple_total by auto; lia).
    rewrite (argsort_argsort L' _ f HL Hf'). unfold L', transposed.
    pose proof (argsort_perm pl _ Hp) as Hq. pose proof (is_perm_lt _ _ f Hq Hf') as Hv.
    rewrite (nth_indep _ 0 ((fun p => (p mod Fo) * simple_card F Fo + p / Fo) 0)) by (rewrite map_length, (is_perm_length _ _ Hq); auto).
    rewrite (map_nth (fun p => (p mod Fo) * simple_card F Fo + p / Fo)). apply transposed_div; auto.
Qed.

(** Several repetitions and one feature per group. *)
Theorem walks_multi : g_struct g = STopDown -> e_R E <> 1 -> e_F E = 2 ^ nval (g_depth g) -> exists E', walks E'.
Proof.
  intros Hst HR HF2. pose proof (ac_build _ _ _ HA) as H. destruct (build_inv g o E (ac_card _ _ _ HA) (ac_oracle _ _ _ HA) H) as (_ & EF & _ & ER & _).
  destruct (build_input_layer g o E (ac_oracle _ _ _ HA) sizes Hst H) as (lf & El).
  rewrite <- ER, <- EF in El. destruct (Nat.eqb_spec (e_R E) 1); [contradiction|]. rewrite <- HF2 in El.
  assert (PL: perm_len g = e_F E).
  { unfold perm_len. rewrite Hst, <- ER, EF. destruct (Nat.eqb_spec (e_R E) 1); [contradiction|]. reflexivity. }
  assert (Hp: forall r, r < e_R E -> is_perm (o_perm o r) (e_F E)).
  { intros r Hr. rewrite <- PL. apply (ok_perm _ _ (ac_oracle _ _ _ HA)). lia. }
  assert (Hs: Permutation (o_sizes o) (group_sizes (e_F E) (e_F E))).
  { pose proof (ok_sizes _ _ (ac_oracle _ _ _ HA)) as S. unfold groups_of in S. rewrite <- HF2, <- EF in S. exact S. }
  exists (mkE (e_F E) (e_C E) (e_L E) (e_R E) (e_K E) (LBase (leafE E)) (Some (o_perm o, fun r => argsort (o_perm o r))) (e_layers E) (e_mixing E) (e_root E)).
  assert (Lo: leaf_out E = e_F E) by (unfold leaf_out; rewrite El; auto).
  split.
  - repeat split.
  - destruct HE. split; cbn [e_F e_C e_L e_R e_K e_leaf e_layers e_mixing e_root leaf_of]; auto.
    + unfold leaf_layer_ok. cbn [e_leaf e_perm e_F e_R]. auto.
    + unfold leaf_out at 1. cbn [e_leaf e_F]. rewrite <- Lo. auto.
  - unfold leaf_out at 1. cbn [e_leaf e_F]. auto.
  - intros r f Hr Hf. unfold fgrp, sgrp. cbn [e_leaf e_perm]. rewrite El.
    pose proof (make_scopes_grp (e_F E) (e_F E) (e_R E) (o_sizes o) (o_perm o) (eo_F E HE) Hs Hp) as (_ & Gl & Gs).
    set (sc := make_scopes _ _ _ _ _) in *. set (fg := find_group sc (e_F E) r f).
    assert (L: fg < e_F E) by (apply Gl; auto). specialize (Gs r f fg Hr Hf L). fold fg in Gs. rewrite Nat.eqb_refl in Gs.
    unfold sc in Gs. rewrite full_scopes in Gs by (auto; apply (eo_F E HE)). destruct (Nat.eqb_spec (nth fg (o_perm o r) 0) f) as [Q|]; [|discriminate].
    rewrite <- Q. apply (argsort_left (o_perm o r) (e_F E)); auto.
Qed.

Theorem walks_exists : exists E', walks E' /\ (consistent g -> E' = E) /\ (e_R E = 1 -> exists p, accepted g (with_perm o p) E').
Proof.
  pose proof (ac_build _ _ _ HA) as H. destruct (build_inv g o E (ac_card _ _ _ HA) (ac_oracle _ _ _ HA) H) as (_ & EF & _ & ER & _).
  assert (Hself: with_perm o (o_perm o) = o) by (destruct o; reflexivity).
  assert (D: consistent g \/ ~ consistent g /\ g_struct g = STopDown).
  { unfold consistent. destruct (g_struct g); auto. destruct (Nat.eqb_spec (nval (g_R g)) 1); 
      destruct (Nat.eq_dec (nval (g_F g)) (2 ^ nval (g_depth g))); destruct (Nat.eq_dec (nval (g_depth g)) 0); try tauto; right; split; auto; lia. }
  destruct D as [D|[D Hst]].
  - exists E. split; [apply walks_self; apply (groups_agree_build g o); auto; apply HA|]. split; auto. intros _. exists (o_perm o). rewrite Hself. auto.
  - destruct (Nat.eq_dec (e_R E) 1) as [R1|R1].
    + destruct (walks_single Hst R1) as (p & E' & A & W). exists E'. split; auto. split; [tauto|]. intros _. eauto.
    + destruct (walks_multi Hst R1) as (E' & W).
      * unfold consistent in D. rewrite Hst in D. destruct (Nat.eqb_spec (nval (g_R g)) 1); [lia|]. lia.
      * exists E'. split; auto. split; tauto.
Qed.
End Route.

Local Open Scope R_scope.
Lemma walks_net {V} (E E' : einet V) q k : einet_ok E -> walks E E' -> (k < e_K E)%nat -> neteval (snet E 1) q k = neteval (fnet E') q k.
Proof.
  intros HE W Hk. destruct W as [(S1 & S2 & S3 & S4 & S5 & S6 & S7 & S8 & S9) W2 W3 W4].
  unfold neteval. cbn [snet fnet net_with nR nmix nls]. rewrite S4. apply rsum_ext. intros r Hr. f_equal.
  - unfold emix. rewrite S8, S4. reflexivity.
  - rewrite S7, S3. apply (evals_ext (e_R E) _ (leaf_out E) (e_L E) 1 (e_K E)); auto.
    + apply layers_chain. apply (eo_layers E HE).
    + intros d l r' Hd Hl Hr'. unfold leafval. cbn [snet fnet net_with nF nC ngroup]. rewrite S1, S2. apply rprod_ext. intros f Hf. rewrite W4 by auto. auto.
Qed.

(** * Leaves with finitely many values *)
Section Law.
Variables (g : config) (o : oracle nat) (E E' : einet nat) (B : nat).
Hypothesis HA : accepted g o E.
Hypothesis HB : discrete_leaf B (leafE E).
Hypothesis Hctx : lf_ctx (leafE E) = true.
Hypothesis W : walks E E'.
Let HE := accepted_ok g o E HA.

Theorem walks_law a : check_args E a = Ok tt -> class_ok E a -> a_ev a = None -> (0 < num_samples a)%nat ->
  a_mpe a = false -> a_mpel a = false -> a_tsum a = 1 ->
  forall xs, (forall n c f, (n < num_samples a)%nat -> (c < e_C E)%nat -> (f < e_F E)%nat -> (xs n c f < B)%nat) ->
  Pr B (leafE E) (sample E a) (rows_are (num_samples a) (e_C E) (e_F E) xs) =
  rprod (num_samples a) (fun n => rsum (e_K E) (fun y => cweight E a n y * lik E' (one_row (e_C E) (e_F E) (xs n)) None 0 y)).
Proof.
  intros Hch Hcl Hev HN Hm Hml HT xs Hx. rewrite (sample_rows_snet E HE B HB Hctx a) by (auto; rewrite HT; lra).
  apply rprod_ext. intros n Hn. apply rsum_ext. intros y Hy. f_equal. rewrite HT, (walks_net E E') by auto.
  pose proof (wk_same _ _ W) as (S1 & S2 & S3 & S4 & S5 & S6 & _).
  rewrite <- S1, <- S2. rewrite (lik_one_row E' (wk_ok _ _ W) B).
  - rewrite S6. reflexivity.
  - rewrite S6. auto.
  - rewrite S1, S2. auto.
  - lia.
Qed.
End Law.

(** * Leaves with densities *)
Section Dens.
Context {V : Type}.
Variables (g : config) (o : oracle V) (E E' : einet V).
Hypothesis HA : accepted g o E.
Hypothesis Hctx : lf_ctx (leafE E) = true.
Hypothesis W : walks E E'.
Variable Int : nat -> nat -> (V -> R) -> R -> Prop.
Hypothesis HD : density_leaf Int (leafE E).
Variable EL : list nat -> (V -> R) -> R.
Hypothesis HEL : leaf_expectation EL.
Let HE := accepted_ok g o E HA.

Theorem walks_dens a h ps : check_args E a = Ok tt -> class_ok E a -> a_ev a = None -> (0 < num_samples a)%nat ->
  a_mpe a = false -> a_mpel a = false -> a_tsum a = 1 -> missing (e_C E) (e_F E) (fun _ _ => @None V) ps ->
  (forall n c f v, 0 <= h n c f v) ->
  (forall n c f, (n < num_samples a)%nat -> (c < e_C E)%nat -> (f < e_F E)%nat -> leaf_law Int (leafE E) EL c f (h n c f)) ->
  exists I, (forall n y, (n < num_samples a)%nat -> (y < e_K E)%nat ->
      integrates Int (fun z => lik E' (row_tensor (e_C E) (e_F E) z) None 0 y * tests (e_C E) (e_F E) (h n) z) ps (fun _ _ => None) (I n y)) /\
    expect EL (sample E a) (row_tests E (num_samples a) h) =
    rprod (num_samples a) (fun n => rsum (e_K E) (fun y => cweight E a n y * I n y)).
Proof.
  intros Hch Hcl Hev HN Hm Hml HT Hps Hh HL. pose proof (wk_same _ _ W) as (S1 & S2 & S3 & S4 & S5 & S6 & _).
  exists (fun n y => neteval (fnet E') (elg EL (h n)) y). split.
  - intros n y Hn Hy.
    assert (HD': density_leaf Int (leafE E')) by (rewrite S6; auto). rewrite <- S5 in Hy. rewrite <- S1, <- S2 in *.
    pose proof (lik_tests E' (wk_ok _ _ W) Int HD' EL (h n) (fun _ _ => None) y ps Hy Hps) as P. cbn beta iota in P. apply P.
    + discriminate.
    + auto.
    + intros c f Hin. apply Hps in Hin as (Hc & Hf & _). rewrite S6. apply HL; auto.
  - destruct (sample_free_law E HE EL HEL a Hch Hcl Hev HN Hm Hml) as [O X]; [rewrite HT; lra|auto|].
    transitivity (expect EL (sample E a) (fun t => rprod3 (num_samples a) (e_C E) (e_F E) (fun n c f => gtest h n c f (get t [n; c; f])))).
    + apply expect_ext_outcome; auto. intros t Ht. destruct (O _ _ Ht) as (t' & Et & St & _). inversion Et; subst t'.
      rewrite row_tests_3. apply rprod3_ext. intros n c f _ _ _. unfold entry. rewrite St. reflexivity.
    + rewrite (X (gtest h)). apply rprod_ext. intros n Hn. apply rsum_ext. intros y Hy. f_equal. rewrite HT, (walks_net E E') by auto. reflexivity.
Qed.
End Dens.
