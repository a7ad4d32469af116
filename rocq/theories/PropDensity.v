(** C52, C53: networks over continuous leaves are densities, and sampling follows them. *)
From Coq Require Import List Arith Lia Bool ZArith Reals Lra Permutation Classical.
Import ListNotations.
From Verif Require Import Base RSum Num Tensor Prob Layers Leaf Perm RefLeaf TypeChecks Einet RefEinet RefEinetS Build RefBuild Spec RefSpec RefMore RefPack Family RefFamily Ex PropSample
  Density RefDensity RefDensityS Gauss Integral.
Local Open Scope R_scope.

(** * C52: normalization and marginalization *)
(** Leaves of any kind whose components have total mass one, each channel and feature with its own integral. *)
Theorem C52_marginal : forall V g o (E : einet V) Int N x ms n k ps,
  accepted g o E -> density_leaf Int (leafE E) -> evidence E N x ms -> (n < N)%nat -> (k < e_K E)%nat ->
  missing (e_C E) (e_F E) (observed x ms n) ps ->
  integrates Int (fun z => lik E (row_tensor (e_C E) (e_F E) z) None 0 k) ps (observed x ms n) (lik E x ms n k).
Proof.
  intros V g o E Int N x ms n k ps HA HD He Hn Hk Hm. rewrite observed_row in *.
  apply (lik_integral E (accepted_ok g o E HA) Int HD N); auto. apply evidence_input; auto.
Qed.
Print Assumptions C52_marginal.
Theorem C52_normalized : forall V g o (E : einet V) Int k ps,
  accepted g o E -> density_leaf Int (leafE E) -> (k < e_K E)%nat ->
  missing (e_C E) (e_F E) (fun _ _ => @None V) ps ->
  integrates Int (fun z => lik E (row_tensor (e_C E) (e_F E) z) None 0 k) ps (fun _ _ => None) 1.
Proof.
  intros V g o E Int k ps HA HD Hk Hm. set (x := row_tensor (e_C E) (e_F E) (fun _ _ => @None V)).
  assert (B: batch E 1 x) by (split; [right; left; reflexivity|]; intros n c f v _ _ _ H; discriminate H).
  assert (L: lik E x None 0 k = 1).
  { destruct (forward_missing E (accepted_ok g o E HA) 1 x None 0 k) as (y & Ey & Gy); auto.
    - apply batch_input; auto.
    - unfold lik. rewrite Ey, Gy. cbn [pval]. apply exp_0. }
  rewrite <- L. apply (C52_marginal V g o E Int 1 x None 0 k ps); auto. split; auto.
Qed.
Print Assumptions C52_normalized.
(** The value is determined by the integrals, whatever the order of the entries. *)
Theorem C52_unique : forall V g o (E : einet V) Int N x ms n k ps a,
  accepted g o E -> density_leaf Int (leafE E) -> evidence E N x ms -> (n < N)%nat -> (k < e_K E)%nat ->
  missing (e_C E) (e_F E) (observed x ms n) ps ->
  integrates Int (fun z => lik E (row_tensor (e_C E) (e_F E) z) None 0 k) ps (observed x ms n) a -> a = lik E x ms n k.
Proof.
  intros V g o E Int N x ms n k ps a HA HD He Hn Hk Hm Ha.
  apply (integrates_unique Int (fun z => lik E (row_tensor (e_C E) (e_F E) z) None 0 k) ps) with (z := observed x ms n); auto.
  - intros c f Hin. apply Hm in Hin as (Hc & Hf & _). apply (lin E (accepted_ok g o E HA) Int HD); auto.
  - apply (C52_marginal V g o E Int N x ms n k ps); auto.
Qed.
Print Assumptions C52_unique.

(** Normal leaves, with the Riemann integral over the real line. *)
Lemma normal_lp_pdf mu sigma x : 0 < sigma -> pval (normal_lp mu sigma x) = normal_pdf mu sigma x.
Proof.
  intros Hs. rewrite normal_fin by auto. cbn [pval]. unfold rnormal, normal_pdf.
  assert (P: 0 < sqrt (2 * PI)) by (apply sqrt_lt_R0; pose proof PI_RGT_0; lra).
  unfold Rminus. rewrite !exp_plus, !exp_Ropp, !exp_ln by auto. field. lra.
Qed.
Theorem C52_normal_mass : forall mu sigma, 0 < sigma -> improper (fun x => pval (normal_lp mu sigma x)) 1.
Proof.
  intros mu sigma Hs. apply (li_ext _ improper_linear (normal_pdf mu sigma)); [|apply normal_mass; auto].
  intros x. symmetry. apply normal_lp_pdf; auto.
Qed.
Print Assumptions C52_normal_mass.
Lemma normal_density F C L Rn means logvar : density_leaf (fun _ _ => improper) (normal_leaf F C L Rn means logvar).
Proof.
  split; [intros; apply improper_linear|]. intros c f l r _ _ _ _.
  apply (li_ext _ improper_linear (fun x => pval (normal_lp (means [c; f; l; r]) (normal_sigma (logvar [c; f; l; r])) x))); [reflexivity|].
  apply C52_normal_mass. apply exp_pos.
Qed.
Theorem C52_normal_network : forall g o (E : einet R) means logvar k ps,
  accepted g o E -> leafE E = normal_leaf (e_F E) (e_C E) (e_L E) (e_R E) means logvar -> (k < e_K E)%nat ->
  missing (e_C E) (e_F E) (fun _ _ => @None R) ps ->
  integrates (fun _ _ => improper) (fun z => lik E (row_tensor (e_C E) (e_F E) z) None 0 k) ps (fun _ _ => None) 1.
Proof.
  intros g o E means logvar k ps HA HL Hk Hm. apply (C52_normalized R g o E); auto. rewrite HL. apply normal_density.
Qed.
Print Assumptions C52_normal_network.

(** A top-down network over Normal leaves: 5 features, 2 channels, 2 repetitions, 3 classes. *)
Definition nmean (key : list nat) : R := INR (list_sum key) / 3.
Definition nlogvar (key : list nat) : R := INR (list_sum key) / 5 - 1.
Definition rchoices (sizes : list nat) (perm : nat -> list nat) : oracle R :=
  mkOracle (fun i idx => grow (i :: idx)) grow grow grow sizes perm (fun F C L Rn => Ok (normal_leaf F C L Rn nmean nlogvar)).
Lemma normal_leaf_ok F C L Rn means logvar : leaf_ok (normal_leaf F C L Rn means logvar).
Proof.
  split; [reflexivity|]. intros c f l r v _ _ _ _ _. unfold normal_leaf. cbn [lf_logp]. rewrite normal_fin by apply exp_pos. reflexivity.
Qed.
Lemma rchoices_ok F C S L Rn K d drop t s sizes perm :
  let g := plain F C S L Rn K d drop t s in
  Permutation sizes (group_sizes F (2 ^ d)) -> (forall r, (r < Rn)%nat -> is_perm (perm r) (perm_len g)) ->
  oracle_ok g (rchoices sizes perm).
Proof.
  intros g Hs Hp. unfold g in *. split; cbn [rchoices o_logits o_top o_mix o_root o_sizes o_perm o_leaf]; auto.
  - unfold groups_of, plain. cbn [g_F g_depth]. rewrite !nval_nat. auto.
  - unfold plain in *. cbn [g_R] in *. rewrite nval_nat. auto.
  - unfold plain. cbn [g_F g_C g_L g_R]. rewrite !nval_nat. eexists. split; [reflexivity|]. split; [apply normal_leaf_ok|]. repeat split.
Qed.
Definition ex_n_o : oracle R := rchoices [1; 2; 1; 1]%nat ex_td_perm.
Lemma ex_n_oracle : oracle_ok ex_td_g ex_n_o.
Proof.
  apply rchoices_ok.
  - cbn. perms.
  - intros r Hr. unfold perm_len, plain. cbn [g_struct g_R g_F]. rewrite !nval_nat. cbn [Nat.eqb].
    destruct r as [|[|]]; [| |lia]; unfold ex_td_perm; cbn [Nat.eqb]; perms.
Qed.
Lemma ex_n : exists E, accepted ex_td_g ex_n_o E /\ e_F E = 5%nat /\ e_C E = 2%nat /\ e_R E = 2%nat /\ e_K E = 3%nat /\ e_L E = 2%nat /\
  leafE E = normal_leaf 5 2 2 2 nmean nlogvar.
Proof.
  destruct (build_succeeds ex_td_g ex_n_o) as (E & HE).
  - apply plain_valid; try lia; try lra; try congruence. simpl; lia.
  - reflexivity.
  - apply ex_n_oracle.
  - exists 0%R. split; [constructor|lra].
  - cbn [ex_td_g plain g_depth zval]. lia.
  - discriminate.
  - exists E. assert (A: accepted ex_td_g ex_n_o E) by (split; [reflexivity|apply ex_n_oracle|exact HE]).
    destruct (build_inv ex_td_g ex_n_o E eq_refl ex_n_oracle HE) as (HO & EF & EC & ER & EK).
    split; [exact A|]. cbn [ex_td_g plain g_F g_C g_R g_K] in *. rewrite nval_nat in *.
    repeat (split; [assumption|]).
    assert (L: leafE E = normal_leaf 5 2 2 2 nmean nlogvar).
    { unfold build in HE. apply bind_ok in HE as ([] & _ & HE). cbn [ex_td_g plain g_struct] in HE. unfold build_top_down in HE.
      apply bind_ok in HE as (? & _ & HE). apply bind_ok in HE as (? & _ & HE). apply bind_ok in HE as (? & _ & HE).
      apply bind_ok in HE as (lf & Hl & HE). apply bind_ok in HE as (? & _ & HE). apply bind_ok in HE as (? & _ & HE).
      inversion HE. unfold leafE. cbn [e_leaf]. unfold build_input in Hl. cbn [ex_n_o rchoices o_leaf] in Hl.
      unfold ex_td_g, plain in Hl. cbn [g_F g_C g_L g_R] in Hl. rewrite !nval_nat in Hl. cbn [bind Nat.eqb] in Hl. inversion Hl. reflexivity. }
    split; [|exact L]. rewrite <- (eo_lL E HO). fold (leafE E). rewrite L. reflexivity.
Qed.
(** A bottom-up network over Normal leaves: 5 features, 1 channel, 2 repetitions, one class. *)
Lemma ex_nb_oracle : oracle_ok ex_bu_g ex_n_o.
Proof.
  apply rchoices_ok.
  - cbn. perms.
  - intros r Hr. unfold perm_len, plain. cbn [g_struct g_R g_F]. rewrite !nval_nat.
    destruct r as [|[|]]; [| |lia]; unfold ex_td_perm; cbn [Nat.eqb]; perms.
Qed.
Lemma ex_nb : exists E, accepted ex_bu_g ex_n_o E /\ e_F E = 5%nat /\ e_C E = 1%nat /\ e_R E = 2%nat /\ e_K E = 1%nat /\ e_L E = 2%nat /\
  leafE E = normal_leaf 5 1 2 2 nmean nlogvar.
Proof.
  destruct (build_succeeds ex_bu_g ex_n_o) as (E & HE).
  - apply plain_valid; try lia; try lra; try congruence. simpl; lia.
  - reflexivity.
  - apply ex_nb_oracle.
  - exists 0%R. split; [constructor|lra].
  - cbn [ex_bu_g plain g_depth zval]. lia.
  - intros _. cbn [ex_bu_g plain g_depth zval]. lia.
  - exists E. assert (A: accepted ex_bu_g ex_n_o E) by (split; [reflexivity|apply ex_nb_oracle|exact HE]).
    destruct (build_inv ex_bu_g ex_n_o E eq_refl ex_nb_oracle HE) as (HO & EF & EC & ER & EK).
    split; [exact A|]. cbn [ex_bu_g plain g_F g_C g_R g_K] in *. rewrite nval_nat in *.
    repeat (split; [assumption|]).
    assert (L: leafE E = normal_leaf 5 1 2 2 nmean nlogvar).
    { unfold build in HE. apply bind_ok in HE as ([] & _ & HE). cbn [ex_bu_g plain g_struct] in HE. unfold build_bottom_up in HE.
      apply bind_ok in HE as (? & _ & HE). apply bind_ok in HE as (? & _ & HE). apply bind_ok in HE as (? & _ & HE).
      apply bind_ok in HE as (? & _ & HE). apply bind_ok in HE as (? & _ & HE). apply bind_ok in HE as (lf & Hl & HE).
      apply bind_ok in HE as (? & _ & HE). apply bind_ok in HE as (? & _ & HE).
      inversion HE. unfold leafE. cbn [e_leaf leaf_of]. cbn [ex_n_o rchoices o_leaf] in Hl.
      unfold ex_bu_g, plain in Hl. cbn [g_F g_C g_L g_R] in Hl. rewrite !nval_nat in Hl. inversion Hl. reflexivity. }
    split; [|exact L]. rewrite <- (eo_lL E HO). fold (leafE E). rewrite L. reflexivity.
Qed.
(** All entries of a 2 x 5 row. *)
Definition all_entries (C F : nat) : list (nat * nat) := list_prod (seq 0 C) (seq 0 F).
Lemma NoDup_prod {A B} (l : list A) (l' : list B) : NoDup l -> NoDup l' -> NoDup (list_prod l l').
Proof.
  intros H H'. induction H as [|x l Hx Hl IH]; cbn [list_prod]; [constructor|].
  assert (A1: NoDup (map (fun y => (x, y)) l')).
  { clear -H'. induction H'; cbn [map]; constructor; auto. rewrite in_map_iff. intros (y & E & Hy). inversion E; subst. auto. }
  assert (A2: forall p, In p (map (fun y => (x, y)) l') -> ~ In p (list_prod l l')).
  { intros p Hp Hq. apply in_map_iff in Hp as (y & <- & _). apply in_prod_iff in Hq as [Hq _]. auto. }
  revert A1 A2. generalize (map (fun y => (x, y)) l'). intros m A1 A2. induction A1 as [|p m Hp Hm IHm]; cbn [app]; auto.
  constructor; [|apply IHm; intros; apply A2; simpl; auto]. rewrite in_app_iff. intros [H1|H1]; [auto|]. apply (A2 p); simpl; auto.
Qed.
Lemma all_entries_missing {V} C F : missing C F (fun _ _ => @None V) (all_entries C F).
Proof.
  split; [apply NoDup_prod; apply seq_NoDup|]. intros c f. unfold all_entries. rewrite in_prod_iff, !in_seq. intuition lia.
Qed.
Example C52_ex : exists g o (E : einet R), accepted g o E /\ e_F E = 5%nat /\ e_C E = 2%nat /\ e_K E = 3%nat /\
  integrates (fun _ _ => improper) (fun z => lik E (row_tensor 2 5 z) None 0 1) (rev (all_entries 2 5)) (fun _ _ => None) 1.
Proof.
  destruct ex_n as (E & A & HF & HC & HR & HK & HL & Lf). exists ex_td_g, ex_n_o, E. repeat (split; [assumption|]).
  pose proof (C52_normal_network _ _ E nmean nlogvar 1 (rev (all_entries 2 5)) A) as H. rewrite HF, HC, HK, HR, HL in H. apply H; [exact Lf|lia|].
  destruct (@all_entries_missing R 2 5) as [H1 H2]. split; [apply NoDup_rev; auto|]. intros c f. rewrite <- in_rev. apply H2.
Qed.
(** Two rows of evidence: feature 1 is missing in row 0, features 0 and 4 in row 1. *)
Definition nrows : tensor (option R) :=
  mkT [2; 1; 5]%nat (fun idx => match idx with
    | [n; c; f] => match n, f with 0, 1 | 1, 0 | 1, 4 => None | _, _ => Some (INR n - INR f / 2)%R end%nat
    | _ => None end).
Definition nholes (n : nat) : list (nat * nat) := match n with 0 => [(0, 1)] | _ => [(0, 4); (0, 0)] end%nat.
Lemma nrows_batch E : e_F E = 5%nat -> e_C E = 1%nat -> leafE E = normal_leaf 5 1 2 2 nmean nlogvar -> evidence E 2 nrows None.
Proof.
  intros HF HC Lf. split; [|exact I]. split; [right; left; rewrite HF, HC; reflexivity|]. intros. rewrite Lf. reflexivity.
Qed.
Lemma nholes_missing n : (n < 2)%nat -> missing 1 5 (observed nrows None n) (nholes n).
Proof.
  intros Hn. destruct n as [|[|]]; [| |lia]; cbn [nholes]; (split; [repeat constructor; simpl; intuition congruence|]); intros c f; cbn [In]; split.
  - intros [H|[]]. inversion H; subst. repeat split; lia.
  - intros (Hc & Hf & H). destruct c; [|lia]. destruct f as [|[|[|[|[|f]]]]]; try discriminate H; auto.
  - intros [H|[H|[]]]; inversion H; subst; repeat split; lia.
  - intros (Hc & Hf & H). destruct c; [|lia]. destruct f as [|[|[|[|[|f]]]]]; try discriminate H; auto.
Qed.
Example C52_marginal_ex : exists g o (E : einet R), accepted g o E /\ e_F E = 5%nat /\ e_R E = 2%nat /\
  integrates (fun _ _ => improper) (fun z => lik E (row_tensor 1 5 z) None 0 0) [(0, 4); (0, 0)]%nat (observed nrows None 1) (lik E nrows None 1 0).
Proof.
  destruct ex_nb as (E & A & HF & HC & HR & HK & HL & Lf). exists ex_bu_g, ex_n_o, E. repeat (split; [assumption|]).
  pose proof (C52_marginal R _ _ E (fun _ _ => improper) 2 nrows None 1 0 (nholes 1) A) as H. rewrite HF, HC, HK in H. apply H; try lia.
  - rewrite Lf. apply normal_density.
  - apply nrows_batch; auto.
  - apply nholes_missing. lia.
Qed.

(** * C53: samples *)
(** The product of a test function per entry, over a batch. *)
Definition batch_tests {V} (E : einet V) (N : nat) (h : nat -> nat -> nat -> V -> R) (t : tensor (option V)) : R :=
  rprod N (fun n => tests (e_C E) (e_F E) (h n) (fun c f => entry t n c f)).
(** Missing: configurations that are not [consistent]; there the law is false, see C07. *)
Theorem C53_free_partial : forall V g o (E : einet V) Int EL N h ps,
  accepted g o E -> consistent g -> lf_ctx (leafE E) = true -> density_leaf Int (leafE E) -> leaf_expectation EL ->
  e_K E = 1%nat -> (0 < N)%nat -> missing (e_C E) (e_F E) (fun _ _ => @None V) ps ->
  (forall n c f v, 0 <= h n c f v) ->
  (forall n c f, (n < N)%nat -> (c < e_C E)%nat -> (f < e_F E)%nat -> leaf_law Int (leafE E) EL c f (h n c f)) ->
  exists I, (forall n, (n < N)%nat ->
      integrates Int (fun z => lik E (row_tensor (e_C E) (e_F E) z) None 0 0 * tests (e_C E) (e_F E) (h n) z) ps (fun _ _ => None) (I n)) /\
    expect EL (sample E (mkArgs (Some N) CNone None false false 1 None)) (batch_tests E N h) = rprod N I.
Proof.
  intros V g o E Int EL N h ps HA Hco Hctx HD HEL HK HN Hps Hh HL.
  destruct (dfree g o E HA Hco Hctx Int HD EL HEL (mkArgs (Some N) CNone None false false 1 None) h ps) as (I & H1 & H2); auto.
  - unfold check_args. cbn. destruct (e_K E =? 1)%nat; reflexivity.
  - exact I.
  - exists (fun n => I n 0%nat). split; [intros n Hn; apply H1; [exact Hn|lia]|]. etransitivity; [exact H2|].
    apply rprod_ext. intros n Hn. rewrite HK, rsum_1. unfold cweight. rewrite HK. cbn [Nat.ltb Nat.leb]. ring.
Qed.
Print Assumptions C53_free_partial.
Theorem C53_class_partial : forall V g o (E : einet V) Int EL N y h ps,
  accepted g o E -> consistent g -> lf_ctx (leafE E) = true -> density_leaf Int (leafE E) -> leaf_expectation EL ->
  (1 < e_K E)%nat -> (y < e_K E)%nat -> (0 < N)%nat -> missing (e_C E) (e_F E) (fun _ _ => @None V) ps ->
  (forall n c f v, 0 <= h n c f v) ->
  (forall n c f, (n < N)%nat -> (c < e_C E)%nat -> (f < e_F E)%nat -> leaf_law Int (leafE E) EL c f (h n c f)) ->
  exists I, (forall n, (n < N)%nat ->
      integrates Int (fun z => lik E (row_tensor (e_C E) (e_F E) z) None 0 y * tests (e_C E) (e_F E) (h n) z) ps (fun _ _ => None) (I n)) /\
    expect EL (sample E (mkArgs (Some N) (CInt y) None false false 1 None)) (batch_tests E N h) = rprod N I.
Proof.
  intros V g o E Int EL N y h ps HA Hco Hctx HD HEL HK Hy HN Hps Hh HL.
  destruct (dfree g o E HA Hco Hctx Int HD EL HEL (mkArgs (Some N) (CInt y) None false false 1 None) h ps) as (I & H1 & H2); auto.
  - unfold check_args. cbn. destruct (Nat.eqb_spec (e_K E) 1); [lia|reflexivity].
  - split; auto.
  - exists (fun n => I n y). split; [intros n Hn; apply H1; auto|]. etransitivity; [exact H2|].
    apply rprod_ext. intros n Hn. unfold cweight. destruct (Nat.ltb_spec 1 (e_K E)); [|lia]. cbn [a_class]. apply (rsum_ind (e_K E) y (fun k => I n k)). auto.
Qed.
Print Assumptions C53_class_partial.
(** Without a class argument the class has the prior of the root parameters. *)
Theorem C53_prior_partial : forall V g o (E : einet V) Int EL N h ps,
  accepted g o E -> consistent g -> lf_ctx (leafE E) = true -> density_leaf Int (leafE E) -> leaf_expectation EL ->
  (1 < e_K E)%nat -> (0 < N)%nat -> missing (e_C E) (e_F E) (fun _ _ => @None V) ps ->
  (forall n c f v, 0 <= h n c f v) ->
  (forall n c f, (n < N)%nat -> (c < e_C E)%nat -> (f < e_F E)%nat -> leaf_law Int (leafE E) EL c f (h n c f)) ->
  exists I, (forall n y, (n < N)%nat -> (y < e_K E)%nat ->
      integrates Int (fun z => lik E (row_tensor (e_C E) (e_F E) z) None 0 y * tests (e_C E) (e_F E) (h n) z) ps (fun _ _ => None) (I n y)) /\
    expect EL (sample E (mkArgs (Some N) CNone None false false 1 None)) (batch_tests E N h) =
    rprod N (fun n => rsum (e_K E) (fun y =>
      exp (toR (o_root o [0; y; 0; 0]%nat)) / rsum (e_K E) (fun j => exp (toR (o_root o [0; j; 0; 0]%nat))) * I n y)).
Proof.
  intros V g o E Int EL N h ps HA Hco Hctx HD HEL HK HN Hps Hh HL.
  destruct (dfree g o E HA Hco Hctx Int HD EL HEL (mkArgs (Some N) CNone None false false 1 None) h ps) as (I & H1 & H2); auto.
  - unfold check_args. cbn. destruct (e_K E =? 1)%nat; reflexivity.
  - exact I.
  - exists I. split; [auto|]. etransitivity; [exact H2|].
    apply rprod_ext. intros n Hn. apply rsum_ext. intros y Hy. f_equal. unfold cweight. destruct (Nat.ltb_spec 1 (e_K E)); [|lia]. cbn [a_class a_tsum].
    apply (wroot_soft g o); auto.
Qed.
Print Assumptions C53_prior_partial.
(** With evidence: the conditional density given the observed entries. *)
Theorem C53_conditional_partial : forall V g o (E : einet V) Int EL N e ms h ps,
  accepted g o E -> consistent g -> lf_ctx (leafE E) = true -> density_leaf Int (leafE E) -> leaf_expectation EL ->
  e_K E = 1%nat -> evidence E N e ms -> (0 < N)%nat ->
  (forall n, (n < N)%nat -> missing (e_C E) (e_F E) (observed e ms n) (ps n)) ->
  (forall n c f v, 0 <= h n c f v) ->
  (forall n c f, (n < N)%nat -> In (c, f) (ps n) -> leaf_law Int (leafE E) EL c f (h n c f)) ->
  exists I, (forall n, (n < N)%nat ->
      integrates Int (fun z => lik E (row_tensor (e_C E) (e_F E) z) None 0 0 * tests (e_C E) (e_F E) (h n) z) (ps n) (observed e ms n) (I n)) /\
    expect EL (sample E (mkArgs None CNone (Some e) false false 1 ms)) (batch_tests E N h) =
    rprod N (fun n => I n / lik E e ms n 0).
Proof.
  intros V g o E Int EL N e ms h ps HA Hco Hctx HD HEL HK He HN Hps Hh HL.
  set (a := mkArgs None CNone (Some e) false false 1 ms). assert (EN: num_samples a = N) by (cbn; apply (batch_size E); apply He).
  destruct (dgiven g o E HA Hco Hctx Int HD EL HEL a e h ps) as (I & H1 & H2); auto; rewrite ?EN; auto.
  - unfold check_args. cbn. destruct (e_K E =? 1)%nat; reflexivity.
  - apply evidence_input; auto.
  - intros n Hn. rewrite <- observed_row. apply Hps; auto.
  - rewrite EN in *. exists (fun n => I n 0%nat). split; [intros n Hn; rewrite observed_row; apply H1; [exact Hn|lia]|]. etransitivity; [exact H2|].
    apply rprod_ext. intros n Hn. rewrite HK, rsum_1. unfold cweight. rewrite HK. cbn [Nat.ltb Nat.leb]. cbn [a a_ms]. ring.
Qed.
Print Assumptions C53_conditional_partial.
(** Several classes: the class is drawn from the root layer also given evidence (C10). *)
Theorem C53_given_prior_partial : forall V g o (E : einet V) Int EL N e ms h ps,
  accepted g o E -> consistent g -> lf_ctx (leafE E) = true -> density_leaf Int (leafE E) -> leaf_expectation EL ->
  (1 < e_K E)%nat -> evidence E N e ms -> (0 < N)%nat ->
  (forall n, (n < N)%nat -> missing (e_C E) (e_F E) (observed e ms n) (ps n)) ->
  (forall n c f v, 0 <= h n c f v) ->
  (forall n c f, (n < N)%nat -> In (c, f) (ps n) -> leaf_law Int (leafE E) EL c f (h n c f)) ->
  exists I, (forall n y, (n < N)%nat -> (y < e_K E)%nat ->
      integrates Int (fun z => lik E (row_tensor (e_C E) (e_F E) z) None 0 y * tests (e_C E) (e_F E) (h n) z) (ps n) (observed e ms n) (I n y)) /\
    expect EL (sample E (mkArgs None CNone (Some e) false false 1 ms)) (batch_tests E N h) =
    rprod N (fun n => rsum (e_K E) (fun y =>
      exp (toR (o_root o [0; y; 0; 0]%nat)) / rsum (e_K E) (fun j => exp (toR (o_root o [0; j; 0; 0]%nat))) * (I n y / lik E e ms n y))).
Proof.
  intros V g o E Int EL N e ms h ps HA Hco Hctx HD HEL HK He HN Hps Hh HL.
  set (a := mkArgs None CNone (Some e) false false 1 ms). assert (EN: num_samples a = N) by (cbn; apply (batch_size E); apply He).
  destruct (dgiven g o E HA Hco Hctx Int HD EL HEL a e h ps) as (I & H1 & H2); auto; rewrite ?EN; auto.
  - unfold check_args. cbn. destruct (e_K E =? 1)%nat; reflexivity.
  - apply evidence_input; auto.
  - intros n Hn. rewrite <- observed_row. apply Hps; auto.
  - rewrite EN in *. exists I. split; [intros n y Hn Hy; rewrite observed_row; apply H1; auto|]. etransitivity; [exact H2|].
    apply rprod_ext. intros n Hn. apply rsum_ext. intros y Hy. f_equal. unfold cweight. destruct (Nat.ltb_spec 1 (e_K E)); [|lia]. cbn [a a_class a_tsum].
    apply (wroot_soft g o); auto.
Qed.
Print Assumptions C53_given_prior_partial.

(** Normal leaves: the probability that every entry lies in its interval is the integral of the likelihood over the box. *)
Theorem C53_normal_boxes_partial : forall g o (E : einet R) means logvar EL N y lo hi ps,
  accepted g o E -> consistent g -> leafE E = normal_leaf (e_F E) (e_C E) (e_L E) (e_R E) means logvar -> leaf_expectation EL ->
  (forall key u v, u <= v -> EL key (between u v) =
     normal_cdf (means key) (normal_sigma (logvar key)) v - normal_cdf (means key) (normal_sigma (logvar key)) u) ->
  (1 < e_K E)%nat -> (y < e_K E)%nat -> (0 < N)%nat -> missing (e_C E) (e_F E) (fun _ _ => @None R) ps ->
  (forall n c f : nat, lo n c f <= hi n c f) ->
  exists I, (forall n, (n < N)%nat ->
      integrates (fun _ _ => improper) (fun z => lik E (row_tensor (e_C E) (e_F E) z) None 0 y *
        tests (e_C E) (e_F E) (fun c f => between (lo n c f) (hi n c f)) z) ps (fun _ _ => None) (I n)) /\
    expect EL (sample E (mkArgs (Some N) (CInt y) None false false 1 None)) (batch_tests E N (fun n c f => between (lo n c f) (hi n c f))) = rprod N I.
Proof.
  intros g o E means logvar EL N y lo hi ps HA Hco Lf HEL HB HK Hy HN Hps Hle.
  apply (C53_class_partial R g o E (fun _ _ => improper) EL N y (fun n c f => between (lo n c f) (hi n c f)) ps); auto.
  - rewrite Lf. reflexivity.
  - rewrite Lf. apply normal_density.
  - intros. apply between_nonneg.
  - intros n c f _ _ _. split; [intros; apply between_nonneg|]. intros l r _ _. rewrite HB by auto. rewrite Lf.
    apply (li_ext _ improper_linear (fun x => normal_pdf (means [c; f; l; r]) (normal_sigma (logvar [c; f; l; r])) x * between (lo n c f) (hi n c f) x)).
    + intros x. f_equal. symmetry. apply normal_lp_pdf. apply exp_pos.
    + apply normal_between; auto. apply exp_pos.
Qed.
Print Assumptions C53_normal_boxes_partial.

(** There is such an expectation: the integral where it exists. *)
Definition below (f : R -> R) (x : R) : Prop := exists a, improper f a /\ x <= a.
Lemma below_lub f a : improper f a -> is_lub (below f) a.
Proof.
  intros H. split.
  - intros x (b & Hb & Hx). rewrite (li_unique _ improper_linear f a b); auto.
  - intros b Hb. apply Hb. exists a. split; auto. lra.
Qed.
Definition integral_dec (f : R -> R) : {a | improper f a} + {~ exists a, improper f a}.
Proof.
  destruct (ClassicalDedekindReals.sig_not_dec (exists a, improper f a)) as [H|H]; [left|right; exact H]. apply NNPP in H.
  destruct (completeness (below f)) as [b Hb].
  - destruct H as (a & H). exists a. apply (below_lub f a H).
  - destruct H as (a & H). exists a, a. split; auto. lra.
  - exists b. destruct H as (a & H). rewrite (is_lub_u (below f) b a); auto. apply below_lub. auto.
Defined.
Definition the_integral (p : list nat -> R -> R) (key : list nat) (h : R -> R) : R :=
  match integral_dec (fun v => p key v * h v) with inleft H => proj1_sig H | inright _ => h 0 end.
Lemma the_integral_val p key h a : improper (fun v => p key v * h v) a -> the_integral p key h = a.
Proof.
  intros H. unfold the_integral. destruct (integral_dec _) as [[b Hb]|H']; [|destruct H'; eauto].
  cbn [proj1_sig]. apply (li_unique _ improper_linear (fun v => p key v * h v)); auto.
Qed.
Lemma the_integral_none p key h : ~ (exists a, improper (fun v => p key v * h v) a) -> the_integral p key h = h 0.
Proof. intros H. unfold the_integral. destruct (integral_dec _) as [[b Hb]|]; auto. destruct H; eauto. Qed.
Lemma the_integral_ok p : (forall key, improper (p key) 1) -> leaf_expectation (the_integral p).
Proof.
  intros Hp. split.
  - intros key f g E. destruct (classic (exists a, improper (fun v => p key v * f v) a)) as [[a H]|H].
    + rewrite (the_integral_val p key f a H). symmetry. apply the_integral_val. apply (li_ext _ improper_linear (fun v => p key v * f v)); auto.
      intros v. rewrite E. auto.
    + rewrite (the_integral_none p key f H), (the_integral_none p key g), E; auto. intros [a Ha]. apply H. exists a.
      apply (li_ext _ improper_linear (fun v => p key v * g v)); auto. intros v. rewrite E. auto.
  - intros key k f. destruct (Req_dec k 0) as [->|Hk].
    + rewrite Rmult_0_l. apply the_integral_val. apply (li_ext _ improper_linear (fun v => 0 * p key v)); [intros; ring|].
      pose proof (li_scal _ improper_linear 0 (p key) 1 (Hp key)) as H. rewrite Rmult_0_l in H. exact H.
    + destruct (classic (exists a, improper (fun v => p key v * f v) a)) as [[a H]|H].
      * rewrite (the_integral_val p key f a H). apply the_integral_val. apply (li_ext _ improper_linear (fun v => k * (p key v * f v))); [intros; ring|].
        apply (li_scal _ improper_linear). auto.
      * rewrite (the_integral_none p key f H), the_integral_none; auto. intros [a Ha]. apply H. exists (/ k * a).
        apply (li_ext _ improper_linear (fun v => / k * (p key v * (k * f v)))); [intros; field; auto|]. apply (li_scal _ improper_linear). auto.
  - intros key. apply the_integral_val. apply (li_ext _ improper_linear (p key)); auto. intros; ring.
Qed.
(** The probability that two class samples lie in given boxes, for the network above. *)
Example C53_ex : exists g o (E : einet R) EL, accepted g o E /\ e_F E = 5%nat /\ e_C E = 2%nat /\ leaf_expectation EL /\
  exists I, (forall n, (n < 2)%nat ->
      integrates (fun _ _ => improper) (fun z => lik E (row_tensor 2 5 z) None 0 1 *
        tests 2 5 (fun c f => between (INR n - 1) (INR n + INR (c + f))) z) (all_entries 2 5) (fun _ _ => None) (I n)) /\
    expect EL (sample E (mkArgs (Some 2%nat) (CInt 1) None false false 1 None)) (batch_tests E 2 (fun n c f => between (INR n - 1) (INR n + INR (c + f)))) = rprod 2 I.
Proof.
  destruct ex_n as (E & A & HF & HC & HR & HK & HL & Lf).
  set (p := fun key => normal_pdf (nmean key) (normal_sigma (nlogvar key))).
  assert (P: leaf_expectation (the_integral p)) by (apply the_integral_ok; intros; apply normal_mass; apply exp_pos).
  exists ex_td_g, ex_n_o, E, (the_integral p). repeat (split; [assumption|]).
  pose proof (C53_normal_boxes_partial _ _ E nmean nlogvar (the_integral p) 2 1 (fun n _ _ => INR n - 1) (fun n c f => INR n + INR (c + f)) (all_entries 2 5) A td_consistent) as H.
  rewrite HF, HC, HK, HR, HL in H. apply H; auto; try lia.
  - intros key u v Huv. apply the_integral_val. apply normal_between; auto. apply exp_pos.
  - apply all_entries_missing.
  - intros n c f. pose proof (pos_INR (c + f)). lra.
Qed.
Print Assumptions C53_ex.
(** A law of the leaf sampler for tests by intervals. *)
Lemma nlaw C p : p = (fun key => normal_pdf (nmean key) (normal_sigma (nlogvar key))) -> forall c f u v, u <= v ->
  leaf_law (fun _ _ => improper) (normal_leaf 5 C 2 2 nmean nlogvar) (the_integral p) c f (between u v).
Proof.
  intros -> c f u v Huv. split; [intros; apply between_nonneg|]. intros l r _ _.
  set (h := fun x => normal_pdf (nmean [c; f; l; r]) (normal_sigma (nlogvar [c; f; l; r])) x * between u v x).
  assert (H: improper h (normal_cdf (nmean [c; f; l; r]) (normal_sigma (nlogvar [c; f; l; r])) v - normal_cdf (nmean [c; f; l; r]) (normal_sigma (nlogvar [c; f; l; r])) u))
    by (apply normal_between; auto; apply exp_pos).
  rewrite (the_integral_val _ [c; f; l; r] (between u v) _ H). apply (li_ext _ improper_linear h); auto. intros x. unfold h. f_equal. symmetry.
  apply normal_lp_pdf. apply exp_pos.
Qed.
(** Two rows given evidence, each missing entry tested by an interval. *)
Example C53_conditional_ex : exists g o (E : einet R) EL, accepted g o E /\ e_F E = 5%nat /\ leaf_expectation EL /\
  exists I, (forall n, (n < 2)%nat ->
      integrates (fun _ _ => improper) (fun z => lik E (row_tensor 1 5 z) None 0 0 *
        tests 1 5 (fun c f => between (INR n - 1) (INR n + INR (c + f))) z) (nholes n) (observed nrows None n) (I n)) /\
    expect EL (sample E (mkArgs None CNone (Some nrows) false false 1 None)) (batch_tests E 2 (fun n c f => between (INR n - 1) (INR n + INR (c + f)))) =
    rprod 2 (fun n => I n / lik E nrows None n 0).
Proof.
  destruct ex_nb as (E & A & HF & HC & HR & HK & HL & Lf).
  set (p := fun key => normal_pdf (nmean key) (normal_sigma (nlogvar key))).
  assert (P: leaf_expectation (the_integral p)) by (apply the_integral_ok; intros; apply normal_mass; apply exp_pos).
  exists ex_bu_g, ex_n_o, E, (the_integral p). repeat (split; [assumption|]).
  pose proof (C53_conditional_partial R _ _ E (fun _ _ => improper) (the_integral p) 2 nrows None (fun n c f => between (INR n - 1) (INR n + INR (c + f))) nholes A bu_consistent) as H.
  rewrite HF, HC, HK, Lf in H. apply H; auto; try lia.
  - apply normal_density.
  - apply nrows_batch; auto.
  - apply nholes_missing.
  - intros. apply between_nonneg.
  - intros n c f _ _. apply nlaw; auto. pose proof (pos_INR (c + f)). lra.
Qed.
(** Without evidence: one class, then three classes with the prior. *)
Example C53_free_ex : exists g o (E : einet R) EL, accepted g o E /\ e_F E = 5%nat /\ leaf_expectation EL /\
  exists I, (forall n, (n < 2)%nat ->
      integrates (fun _ _ => improper) (fun z => lik E (row_tensor 1 5 z) None 0 0 *
        tests 1 5 (fun c f => between (INR n - 1) (INR n + INR (c + f))) z) (all_entries 1 5) (fun _ _ => None) (I n)) /\
    expect EL (sample E (mkArgs (Some 2%nat) CNone None false false 1 None)) (batch_tests E 2 (fun n c f => between (INR n - 1) (INR n + INR (c + f)))) = rprod 2 I.
Proof.
  destruct ex_nb as (E & A & HF & HC & HR & HK & HL & Lf).
  set (p := fun key => normal_pdf (nmean key) (normal_sigma (nlogvar key))).
  assert (P: leaf_expectation (the_integral p)) by (apply the_integral_ok; intros; apply normal_mass; apply exp_pos).
  exists ex_bu_g, ex_n_o, E, (the_integral p). repeat (split; [assumption|]).
  pose proof (C53_free_partial R _ _ E (fun _ _ => improper) (the_integral p) 2 (fun n c f => between (INR n - 1) (INR n + INR (c + f))) (all_entries 1 5) A bu_consistent) as H.
  rewrite HF, HC, HK, Lf in H. apply H; auto; try lia.
  - apply normal_density.
  - apply all_entries_missing.
  - intros. apply between_nonneg.
  - intros n c f _ _ _. apply nlaw; auto. pose proof (pos_INR (c + f)). lra.
Qed.
Example C53_prior_ex : exists o (E : einet R) EL, accepted ex_td_g o E /\ e_K E = 3%nat /\ leaf_expectation EL /\
  exists I, (forall n y, (n < 2)%nat -> (y < 3)%nat ->
      integrates (fun _ _ => improper) (fun z => lik E (row_tensor 2 5 z) None 0 y *
        tests 2 5 (fun c f => between (INR n - 1) (INR n + INR (c + f))) z) (all_entries 2 5) (fun _ _ => None) (I n y)) /\
    expect EL (sample E (mkArgs (Some 2%nat) CNone None false false 1 None)) (batch_tests E 2 (fun n c f => between (INR n - 1) (INR n + INR (c + f)))) =
    rprod 2 (fun n => rsum 3 (fun y => exp (INR y) / (1 + exp 1 + exp 2) * I n y)).
Proof.
  destruct ex_n as (E & A & HF & HC & HR & HK & HL & Lf).
  set (p := fun key => normal_pdf (nmean key) (normal_sigma (nlogvar key))).
  assert (P: leaf_expectation (the_integral p)) by (apply the_integral_ok; intros; apply normal_mass; apply exp_pos).
  exists ex_n_o, E, (the_integral p). repeat (split; [assumption|]).
  pose proof (C53_prior_partial R _ _ E (fun _ _ => improper) (the_integral p) 2 (fun n c f => between (INR n - 1) (INR n + INR (c + f))) (all_entries 2 5) A td_consistent) as H.
  rewrite HF, HC, HK, Lf in H. destruct H as (I & H1 & H2); auto; try lia.
  - apply normal_density.
  - apply all_entries_missing.
  - intros. apply between_nonneg.
  - intros n c f _ _ _. apply nlaw; auto. pose proof (pos_INR (c + f)). lra.
  - exists I. split; [exact H1|]. etransitivity; [exact H2|]. apply rprod_ext. intros n Hn. apply rsum_ext. intros y Hy. f_equal.
    assert (T: forall j, toR (o_root ex_n_o [0; j; 0; 0]%nat) = INR j) by (intros j; cbn [ex_n_o rchoices o_root grow toR list_sum fold_right]; f_equal; lia).
    rewrite T. f_equal. rewrite !rsum_S, rsum_0, !T. cbn [INR]. rewrite exp_0. replace (1 + 1) with 2 by lra. ring.
Qed.
Print Assumptions C53_prior_ex.
