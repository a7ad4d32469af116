(** C74: every class is a mixture of fully factorized distributions. *)
From Coq Require Import List Arith Lia Bool ZArith Reals Lra.
Import ListNotations.
From Verif Require Import Base RSum Num Tensor Prob Layers Circuit Net RefFwd Leaf Perm RefLeaf TypeChecks Einet RefNet RefEinet Build RefBuild
  Spec RefSpec RefPack Ex PropForward RefTrees.
Local Open Scope R_scope.

(** * Specification *)
(** A component of the mixture: a repetition, and one leaf per feature *)
Record component_of : Type := mkComp { co_w : R; co_rep : nat; co_leaf : nat -> nat }.
(** Its density of row [n]: one leaf density per observed entry *)
Definition product_density {V} (E : einet V) (x : tensor (option V)) (ms : option (list nat)) (n : nat) (p : component_of) : R :=
  rprod (e_F E) (fun f => rprod (e_C E) (fun c => match observed x ms n c f with
    | Some v => exp (toR (lf_logp (leafE E) [c; f; co_leaf p f; co_rep p] v))
    | None => 1 end)).
Record components {V} (E : einet V) (ps : list component_of) : Prop := {
  cs_pos : forall p, In p ps -> 0 < co_w p;
  cs_rep : forall p, In p ps -> (co_rep p < e_R E)%nat;
  cs_leaf : forall p f, In p ps -> (f < e_F E)%nat -> (co_leaf p f < e_L E)%nat;
  cs_sum : lsum co_w ps = 1 }.

Lemma row_observed {V} (x : tensor (option V)) ms n c f : row x ms n c f = observed x ms n c f.
Proof. unfold row, observed, in_ms. destruct ms; reflexivity. Qed.
Lemma lik_net {V} g o (E : einet V) N x ms n k : accepted g o E -> evidence E N x ms -> (n < N)%nat -> (k < e_K E)%nat ->
  lik E x ms n k = neteval (fnet E) (lval (pdf (leafE E)) (row x ms n)) k /\
  exists y, forward E x ms = Ok y /\ get y [n; k] = Fin (ln (neteval (fnet E) (lval (pdf (leafE E)) (row x ms n)) k)).
Proof.
  intros A He Hn Hk. pose proof (accepted_ok g o E A) as HE. destruct (forward_rep E HE N x ms (evidence_input E N x ms He)) as (y & Ey & _ & Gy).
  assert (P: 0 < neteval (fnet E) (lval (pdf (leafE E)) (row x ms n)) k) by (apply neteval_pos; [apply fnet_wf; auto|auto|intros; apply lval_pos]).
  split; [|exists y; split; auto; apply Gy; auto]. unfold lik. rewrite Ey, Gy by auto. cbn [pval]. apply exp_ln; auto.
Qed.

(** * C74 *)
(** The components depend on the class only, not on the data. *)
Theorem C74_mixture : forall V g (o : oracle V) E k, accepted g o E -> (k < e_K E)%nat ->
  exists ps, components E ps /\ forall N x ms n, evidence E N x ms -> (n < N)%nat ->
    lik E x ms n k = lsum (fun p => co_w p * product_density E x ms n p) ps.
Proof.
  intros V g o E k A Hk. pose proof (accepted_ok g o E A) as HE. pose proof (fnet_wf E HE) as HW.
  destruct (net_trees (fnet E) k HW Hk) as (ps & Hps & Hq). pose proof (trees_one (fnet E) k ps HW Hk Hq) as H1.
  exists (map (fun p => mkComp (p_w p) (p_r p) (p_l p)) ps). split.
  - split.
    + intros p Hp. apply in_map_iff in Hp as (p' & <- & Hp). apply (Hps p' Hp).
    + intros p Hp. apply in_map_iff in Hp as (p' & <- & Hp). apply (Hps p' Hp).
    + intros p f Hp Hf. apply in_map_iff in Hp as (p' & <- & Hp). apply (Hps p' Hp); auto.
    + rewrite lsum_map. exact H1.
  - intros N x ms n He Hn. rewrite (proj1 (lik_net g o E N x ms n k A He Hn Hk)), Hq, lsum_map. apply lsum_ext. intros p _. cbn [co_w co_rep co_leaf]. f_equal.
    unfold product_density. apply rprod_ext. intros f _. apply rprod_ext. intros c _. unfold lval. rewrite row_observed. cbn [co_leaf co_rep]. reflexivity.
Qed.
Print Assumptions C74_mixture.

(** The sum of one number per observed entry *)
Definition sum_observed {V} (E : einet V) (x : tensor (option V)) (ms : option (list nat)) (n : nat) (h : nat -> nat -> R) : R :=
  rsum (e_F E) (fun f => rsum (e_C E) (fun c => match observed x ms n c f with Some _ => h c f | None => 0 end)).
Lemma rprod_exp m f : rprod m (fun i => exp (f i)) = exp (rsum m f).
Proof. induction m as [|m IH]; [rewrite rprod_0, rsum_0, exp_0; auto|]. rewrite rprod_S, rsum_S, exp_plus, IH. auto. Qed.
Lemma density_exp {V} (E : einet V) x ms n p : product_density E x ms n p =
  exp (rsum (e_F E) (fun f => rsum (e_C E) (fun c => match observed x ms n c f with Some v => toR (lf_logp (leafE E) [c; f; co_leaf p f; co_rep p] v) | None => 0 end))).
Proof.
  unfold product_density. rewrite <- rprod_exp. apply rprod_ext. intros f _. rewrite <- rprod_exp. apply rprod_ext. intros c _. destruct (observed x ms n c f); auto. rewrite exp_0; auto.
Qed.
Lemma exp_mono a b : a <= b -> exp a <= exp b.
Proof. intros [H|H]; [left; apply exp_increasing; auto|right; rewrite H; auto]. Qed.
Lemma exp_mono_inv a b : exp a <= exp b -> a <= b.
Proof. intros [H|H]; [left; apply exp_lt_inv; auto|right; apply exp_inv; auto]. Qed.
(** A log-likelihood lies between the sums of the smallest and of the largest leaf log-densities. *)
Theorem C74_bounds : forall V g (o : oracle V) E N x ms n k lo hi, accepted g o E -> evidence E N x ms -> (n < N)%nat -> (k < e_K E)%nat ->
  (forall c f l r v, (c < e_C E)%nat -> (f < e_F E)%nat -> (l < e_L E)%nat -> (r < e_R E)%nat -> observed x ms n c f = Some v ->
    lo c f <= toR (lf_logp (leafE E) [c; f; l; r] v) <= hi c f) ->
  exists y ll, forward E x ms = Ok y /\ get y [n; k] = Fin ll /\ sum_observed E x ms n lo <= ll <= sum_observed E x ms n hi.
Proof.
  intros V g o E N x ms n k lo hi A He Hn Hk H. destruct (lik_net g o E N x ms n k A He Hn Hk) as (EL & y & Ey & Gy).
  exists y. eexists. split; [exact Ey|]. split; [exact Gy|].
  assert (P: 0 < neteval (fnet E) (lval (pdf (leafE E)) (row x ms n)) k) by (apply neteval_pos; [apply fnet_wf, (accepted_ok g o); auto|auto|intros; apply lval_pos]).
  destruct (C74_mixture V g o E k A Hk) as (ps & HP & Hps). rewrite <- EL in *. clear Gy. specialize (Hps N x ms n He Hn).
  assert (B: forall p, In p ps -> exp (sum_observed E x ms n lo) <= product_density E x ms n p <= exp (sum_observed E x ms n hi)).
  { intros p Hp. rewrite density_exp. split; apply exp_mono; unfold sum_observed; apply rsum_le; intros f Hf; apply rsum_le; intros c Hc;
      (destruct (observed x ms n c f) as [v|] eqn:Ev; [|lra]); apply (H c f _ _ v); auto; try apply (cs_rep _ _ HP); try apply (cs_leaf _ _ HP); auto. }
  assert (W: forall p, In p ps -> 0 < co_w p) by apply (cs_pos _ _ HP).
  split; apply exp_mono_inv; rewrite exp_ln by auto; rewrite Hps.
  - apply Rle_trans with (lsum (fun p => co_w p * exp (sum_observed E x ms n lo)) ps); [rewrite lsum_scal_r; change (fun a => co_w a) with co_w; rewrite (cs_sum _ _ HP); lra|].
    apply lsum_le. intros p Hp. specialize (B p Hp). specialize (W p Hp). nra.
  - apply Rle_trans with (lsum (fun p => co_w p * exp (sum_observed E x ms n hi)) ps); [|rewrite lsum_scal_r; change (fun a => co_w a) with co_w; rewrite (cs_sum _ _ HP); lra].
    apply lsum_le. intros p Hp. specialize (B p Hp). specialize (W p Hp). nra.
Qed.
Print Assumptions C74_bounds.
(** With one leaf per feature and one repetition the weights play no part: the network is one product. *)
Theorem C74_single : forall V g (o : oracle V) E N x ms n k, accepted g o E -> e_L E = 1%nat -> e_R E = 1%nat -> evidence E N x ms -> (n < N)%nat -> (k < e_K E)%nat ->
  exists y, forward E x ms = Ok y /\ get y [n; k] = Fin (rsum (e_F E) (fun f => rsum (e_C E) (fun c =>
    match observed x ms n c f with Some v => toR (lf_logp (leafE E) [c; f; 0%nat; 0%nat] v) | None => 0 end))).
Proof.
  intros V g o E N x ms n k A HL HR He Hn Hk.
  set (h := fun c f => match observed x ms n c f with Some v => toR (lf_logp (leafE E) [c; f; 0%nat; 0%nat] v) | None => 0 end).
  destruct (C74_bounds V g o E N x ms n k h h A He Hn Hk) as (y & ll & Ey & Gy & B).
  - intros c f l r v _ _ Hl Hr Ev. assert (l = 0%nat) as -> by lia. assert (r = 0%nat) as -> by lia. unfold h. rewrite Ev. lra.
  - exists y. split; auto. rewrite Gy. f_equal. unfold sum_observed in B. transitivity (rsum (e_F E) (fun f => rsum (e_C E) (fun c => match observed x ms n c f with Some _ => h c f | None => 0 end))); [lra|].
    apply rsum_ext. intros f _. apply rsum_ext. intros c _. unfold h. destruct (observed x ms n c f); auto.
Qed.
Print Assumptions C74_single.

(** ** Concrete case: 5 features in 2 channels with 3 classes and 2 repetitions; every leaf is the coin with probability 1/3 *)
Example C74_ex : exists E ps, accepted ex_td_g ex_td_o E /\ components E ps /\
  lik E (two_rows 2 5 ex_missing) None 1 2 = lsum (fun p => co_w p * product_density E (two_rows 2 5 ex_missing) None 1 p) ps.
Proof.
  destruct ex_td as (E & A & HF & HC & HR & HK & D & _).
  assert (He: evidence E 2 (two_rows 2 5 ex_missing) None).
  { split; [|exact I]. apply two_rows_batch; auto; [intros u; apply (dl_supp 2 _ D)|exact ex_missing_lt]. }
  destruct (C74_mixture nat ex_td_g ex_td_o E 2 A ltac:(lia)) as (ps & HP & H). exists E, ps. split; auto. split; auto. apply (H 2%nat _ None 1%nat He). lia.
Qed.
(** ... and one with one leaf per feature and one repetition *)
Definition ex_one_g : config := plain 5 2 3 1 1 3 2 0 TEinsum STopDown.
Definition ex_one_o : oracle nat := choices [1; 2; 1; 1]%nat (fun _ => [4; 2; 0; 3; 1; 6; 7; 5]%nat) third.
Lemma ex_one_oracle : oracle_ok ex_one_g ex_one_o.
Proof.
  apply choices_ok.
  - cbn. perms.
  - intros r Hr. unfold perm_len, plain. cbn [g_struct g_R g_F]. rewrite !nval_nat. cbn [Nat.eqb]. assert (r = 0%nat) as -> by lia. perms.
Qed.
Example C74_single_ex : exists E y, accepted ex_one_g ex_one_o E /\ e_K E = 3%nat /\ forward E (two_rows 2 5 ex_missing) None = Ok y /\ get y [1; 2]%nat = get y [1; 0]%nat.
Proof.
  destruct (build_succeeds ex_one_g ex_one_o) as (E & HE).
  - apply plain_valid; try lia; try lra; try congruence. simpl; lia.
  - reflexivity.
  - apply ex_one_oracle.
  - exists 0%R. split; [constructor|lra].
  - cbn [ex_one_g plain g_depth zval]. lia.
  - discriminate.
  - assert (A: accepted ex_one_g ex_one_o E) by (split; [reflexivity|apply ex_one_oracle|exact HE]).
    destruct (build_inv ex_one_g ex_one_o E eq_refl ex_one_oracle HE) as (HO & EF & EC & ER & EK).
    assert (L: leafE E = coin third 5 2 1 1).
    { unfold build in HE. apply bind_ok in HE as ([] & _ & HE). cbn [ex_one_g plain g_struct] in HE. unfold build_top_down in HE.
      apply bind_ok in HE as (? & _ & HE). apply bind_ok in HE as (? & _ & HE). apply bind_ok in HE as (? & _ & HE).
      apply bind_ok in HE as (lf & Hl & HE). apply bind_ok in HE as (? & _ & HE). apply bind_ok in HE as (? & _ & HE).
      inversion HE. unfold leafE. cbn [e_leaf]. unfold build_input in Hl. cbn [ex_one_o choices o_leaf] in Hl.
      unfold ex_one_g, plain in Hl. cbn [g_F g_C g_L g_R] in Hl. rewrite !nval_nat in Hl. cbn [bind Nat.eqb] in Hl. inversion Hl. reflexivity. }
    cbn [ex_one_g plain g_F g_C g_R g_K] in *. rewrite nval_nat in *.
    assert (EL: e_L E = 1%nat) by (rewrite <- (eo_lL E HO); fold (leafE E); rewrite L; reflexivity).
    assert (He: evidence E 2 (two_rows 2 5 ex_missing) None).
    { split; [|exact I]. apply two_rows_batch; auto; [rewrite L; intros u; reflexivity|exact ex_missing_lt]. }
    destruct (C74_single nat _ _ E 2 _ None 1%nat 2%nat A EL ER He ltac:(lia) ltac:(lia)) as (y & Ey & G2).
    destruct (C74_single nat _ _ E 2 _ None 1%nat 0%nat A EL ER He ltac:(lia) ltac:(lia)) as (y' & Ey' & G0).
    rewrite Ey in Ey'. injection Ey' as <-. exists E, y. rewrite G2, G0. auto.
Qed.
