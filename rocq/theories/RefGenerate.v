(** The law of samples with modes at the leaves, and the reshaping of generated images. *)
From Coq Require Import List Arith Lia Bool ZArith Reals Lra.
Import ListNotations.
From Verif Require Import Base RSum Num Tensor Prob Layers Circuit Net RefFwd RefSample RefLaw Leaf Perm RefLeaf RefLeafS Einet RefNet RefEinet RefEinetS
  RefMulti RefMv ConvPc RefConv RefConvNet RefConvS Generate.
Local Open Scope R_scope.
Local Arguments Nat.div : simpl never. Local Arguments Nat.modulo : simpl never. Local Arguments Nat.sub : simpl never.
Local Arguments Nat.mul : simpl never. Local Arguments Nat.add : simpl never.

Definition at_mode {V} (md : list nat -> V) (g : nat -> nat -> V -> R) : leaves := fun c f l r => g c f (md [c; f; l; r]).

Section Modes.
Context {V : Type}.
Variable E : einet V.
Hypothesis HE : einet_ok E.
Let lf := leaf_of (e_leaf E).
Variable EL : list nat -> (V -> R) -> R.
Hypothesis HEL : leaf_expectation EL.
Variable md : list nat -> V.
Hypothesis Hmd : lf_mode lf = Some md.

Lemma core_mode_law a cs v : class_ok E a -> (0 < num_samples a)%nat -> a_mpe a = false -> a_mpel a = true -> a_tsum a <> 0 ->
  lf_ctx lf = true ->
  let N := num_samples a in let T := a_tsum a in
  cs_ok E T N cs v -> (forall n, (n < N)%nat -> vpos (leaf_out E) (e_L E) (e_R E) (v n)) ->
  forall g : nat -> nat -> nat -> V -> R,
    expect EL (core E a cs) (fun t => rprod3 N (e_C E) (e_F E) (fun n c f => g n c f (get t [n; c; f]))) =
    rprod N (fun n => rsum (e_K E) (fun y => cweight E a n y *
      (rsum (e_R E) (fun r => emix E T y r * evals (us E T) (vmul (gleaf (e_F E) (e_C E) (sgrp E) (at_mode md (g n))) (v n)) 0%nat y r) /
       rsum (e_R E) (fun r => emix E T y r * evals (us E T) (v n) 0%nat y r)))).
Proof.
  intros Hcl HN Hm Hml HT Hctx N T Hcs Hv g. destruct (walk_law E HE EL HEL a cs v Hcl HN Hm HT Hcs Hv) as [O X]. fold N in O, X, HN. fold T in X.
  pose proof (eo_lC E HE) as EC. pose proof (eo_lF E HE) as EF.
  pose proof (eo_lL E HE) as EL'. pose proof (eo_lR E HE) as ER. fold lf in EC, EF, EL', ER.
  assert (HG: forall r f, (r < lf_R lf)%nat -> (f < lf_F lf)%nat -> (sgrp E r f < leaf_out E)%nat).
  { rewrite EF, ER. intros. apply sgrp_lt; auto. }
  unfold core. rewrite Hm, Hml. cbn [orb]. rewrite expect_bind by auto.
  rewrite (expect_ext_outcome EL HEL _ _ (fun c => tprod N (leaf_out E) c (fun n => gleaf (e_F E) (e_C E) (sgrp E) (at_mode md (g n))))).
  - rewrite X. reflexivity.
  - intros c Ho. destruct (O _ _ Ho) as (c' & Z & Gc & _). inversion Z; subst c'.
    destruct (bottom_routes E HE c N Hctx HN Gc) as (k & Hk & Eb). rewrite Eb. fold lf in Hk |- *.
    rewrite <- EL', <- ER in Gc. destruct (leaf_mode_prog lf k c N (leaf_out E) (sgrp E) md Gc HG Hk Hmd) as (t & -> & _ & Gt). cbn [expect].
    rewrite EC, EF in Gt. rewrite <- (tprod_gleaf N (leaf_out E) (e_F E) (e_C E) (lf_L lf) (lf_R lf) c (sgrp E) (fun n => at_mode md (g n)) Gc).
    + apply rprod3_ext. intros n ch f Hn Hc Hf. rewrite Gt by auto. reflexivity.
    + rewrite <- EF. exact HG.
Qed.

Theorem sample_mode_law a : check_args E a = Ok tt -> class_ok E a -> a_ev a = None -> (0 < num_samples a)%nat ->
  a_mpe a = false -> a_mpel a = true -> a_tsum a <> 0 -> lf_ctx lf = true ->
  let N := num_samples a in
  forall g : nat -> nat -> nat -> option V -> R,
     expect EL (sample E a) (fun t => rprod3 N (e_C E) (e_F E) (fun n c f => g n c f (get t [n; c; f]))) =
     rprod N (fun n => rsum (e_K E) (fun y => cweight E a n y *
       neteval (snet E (a_tsum a)) (at_mode md (fun c f v => g n c f (Some v))) y)).
Proof.
  intros Hch Hcl Hev HN Hm Hml HT Hctx N g.
  assert (Ec: ev_caches E a = Ok (no_caches E)) by (unfold ev_caches; rewrite Hev; auto).
  rewrite (sample_core E a _ Hch Ec).
  pose proof (core_mode_law a (no_caches E) vone Hcl HN Hm Hml HT Hctx (no_caches_ok E HE _ _)) as X.
  specialize (X ltac:(intros n Hn d s r _ _ _; unfold vone; lra)). fold N in X. unfold RefEinetS.finish. rewrite Hev.
  rewrite expect_bind by auto. cbn [expect tmap get]. rewrite (X (fun n c f v => g n c f (Some v))).
  apply rprod_ext. intros n Hn. apply rsum_ext. intros y Hy. f_equal. unfold neteval.
  pose proof (layers_chain (a_tsum a) _ _ _ _ _ _ (eo_layers E HE)) as C.
  rewrite (rsum_ext (e_R E) (fun r => emix E (a_tsum a) y r * evals (us E (a_tsum a)) (vone n) 0%nat y r) (emix E (a_tsum a) y)).
  - rewrite emix_sum by auto. unfold Rdiv. rewrite Rinv_1, Rmult_1_r. cbn [snet net_with nR nmix nls]. apply rsum_ext. intros r Hr.
    f_equal. eapply (evals_ext (e_R E)); [exact C| | | |]; auto. intros d s q _ _ _. unfold vmul, vone. rewrite Rmult_1_r. reflexivity.
  - intros r Hr. unfold us. rewrite (evals_one (e_R E) (layers_us (a_tsum a) (e_L E) (e_layers E)) (leaf_out E) (e_L E) 1 (e_K E)); auto; [ring|].
    intros d s q _ _ _. reflexivity.
Qed.
End Modes.

(** The same for convolutional circuits. *)
Section ConvModes.
Context {V : Type}.
Variables (P : convpc V) (us : R -> list ulayer).
Hypothesis HP : conv_ok P us.
Variable EL : list nat -> (V -> R) -> R.
Hypothesis HEL : leaf_expectation EL.
Variables (val : V -> R) (md : list nat -> V).
Hypothesis Hmd : lf_mode (cp_leaf P) = Some md.
Let C := cp_C P. Let H := cp_H P. Let W := cp_W P. Let L := cp_L P.

Theorem conv_mode_law st N T (g : nat -> nat -> nat -> num -> R) : st_on st = false -> lf_ctx (cp_leaf P) = true -> T <> 0 ->
  expect EL (snd (conv_sample P val st (mkCA (Some N) None false true false T))) (fun t => rprod3 N C (H * W) (fun n c f => g n c f (get t [n; c; f / W; f mod W]%nat))) =
  rprod N (fun n => neteval (conv_net P us T) (at_mode md (fun c f x => g n c f (Fin (val x)))) 0).
Proof.
  intros Hst Hctx HT. cbn [conv_sample ca_num ca_ev snd].
  pose proof (clays_law_off EL HEL _ _ _ _ _ _ _ _ T N (co_clays _ _ HP) HT) as Hl. destruct (Hl _ _ (root_hot P N)) as [O X].
  destruct (co_leafs _ _ HP) as [A1 A2 A3 A4 A5 A6 A7 A8 A9].
  assert (EP: conv_free P val st (mkCA (Some N) None false true false T) N =
    (p <~ clayers_sample T false (combine (cp_layers P) (map (fun _ => None) (cp_layers P))) (full [N; 1; 1; 1]%nat (Fin 1)) ;;
     s <~ leaf_mode_or_draw (cp_leaf P) N true ;; lift (RefConvNet.finish P val p s N))).
  { unfold conv_free, live. rewrite Hst. cbn [ca_mpe ca_mpel ca_params ca_tsum orb]. rewrite Hctx. reflexivity. }
  rewrite EP. clear EP. rewrite expect_bind by auto.
  set (hh := fun (n d l r : nat) => rprod C (fun c => g n c d (Fin (val (md [c; d; l; r]))))).
  transitivity (expect EL (clayers_sample T false (combine (cp_layers P) (map (fun _ => None) (cp_layers P))) (full [N; 1; 1; 1]%nat (Fin 1))) (fun p => cprod N L H W p hh)).
  - apply expect_ext_outcome; auto. intros p Hr. destruct (O _ _ Hr) as (o & i & E & Hj). inversion E; subst o.
    unfold L, H, W. rewrite (cprod_hot _ _ _ _ _ _ _ Hj).
    assert (Hm: true = true -> lf_mode (cp_leaf P) <> None) by (intros _; congruence).
    assert (ED: exists s, leaf_mode_or_draw (cp_leaf P) N true = Ret s).
    { unfold leaf_mode_or_draw. rewrite Hmd. unfold repeat_t. cbn [shape length Nat.eqb lift mbind map2]. eexists. reflexivity. }
    destruct ED as (s & ED). rewrite ED. cbn [mbind].
    destruct (leaf_raw (cp_leaf P) N true (fun _ _ => True) (Ok s) Hm) as (s' & E' & Ss & Gs); [rewrite ED; constructor|].
    inversion E'; subst s'. rewrite A1, A2, A3, A4 in Ss, Gs.
    destruct (finish_ok P us HP val N p i s Hj Ss) as (t & Et & St & Gt). rewrite Et. cbn [lift expect].
    unfold rprod3. apply rprod_ext. intros n Hn. rewrite rprod_swap. apply rprod_ext. intros f Hf. unfold hh. apply rprod_ext. intros c Hc.
    destruct (flat_split f H W Hf) as (h & w & Hh & Hw & ->). pose proof Hj as (_ & Hi & _).
    rewrite flat_div, flat_mod by auto. rewrite Gt by auto. fold H W in Hi |- *.
    destruct (Gs n c (h * W + w)%nat (i n (h * W + w)%nat) 0%nat) as (md' & Em & ->); auto using flat_lt.
    assert (md' = md) by congruence. subst md'. reflexivity.
  - rewrite X. rewrite (cprod_hot _ _ _ _ _ _ _ (root_hot P N)). apply rprod_ext. intros n Hn. change (1 * 1)%nat with 1%nat. rewrite rprod_S, rprod_0, Rmult_1_l.
    pose proof (clays_chain _ _ _ _ _ _ _ _ T (co_clays _ _ HP)) as CH. rewrite conv_neteval.
    assert (E1: evals (us T) (fun _ _ _ => 1) 0%nat 0%nat 0%nat = 1).
    { apply (evals_one _ _ _ _ _ _ (fun _ _ _ => 1) CH); [intros d l r _ _ _; reflexivity|lia|lia|lia]. }
    rewrite E1. unfold Rdiv. rewrite Rinv_1, Rmult_1_r.
    apply (evals_ext _ _ _ _ _ _ _ _ CH); try lia. intros d l r Hd Hl' Hr. rewrite conv_leafval by exact Hd. unfold vmul. rewrite Rmult_1_r. reflexivity.
Qed.
End ConvModes.

(** * Reshaping *)
Lemma view_images {A} (t : tensor A) n C H W : (0 < C)%nat -> (0 < H * W)%nat -> shape t = [n; C; (H * W)%nat] \/ shape t = [n; C; H; W] -> (0 < n)%nat ->
  exists u, view_infer [] [C; H; W] t = Ok u /\ shape u = [n; C; H; W] /\
  forall i c h w, (i < n)%nat -> (c < C)%nat -> (h < H)%nat -> (w < W)%nat ->
    get u [i; c; h; w] = if (length (shape t) =? 3)%nat then get t [i; c; h * W + w]%nat else get t [i; c; h; w].
Proof.
  intros HC HW Hs Hn. assert (HP: (0 < H)%nat /\ (0 < W)%nat) by (split; lia). unfold view_infer. cbn [numel app].
  destruct (Nat.eqb_spec (1 * (C * (H * (W * 1)))) 0) as [Z|_]; [nia|].
  assert (EN: numel (shape t) = (n * (C * (H * W)))%nat) by (destruct Hs as [-> | ->]; cbn [numel]; ring).
  replace (numel (shape t) / (1 * (C * (H * (W * 1)))))%nat with n.
  2:{ rewrite EN. replace (1 * (C * (H * (W * 1))))%nat with (C * (H * W))%nat by ring. symmetry. apply Nat.div_mul. nia. }
  destruct (view_ok [n; C; H; W] t) as (u & Eu & Su & Gu); [rewrite EN; cbn [numel]; ring|].
  exists u. split; auto. split; auto. intros i c h w Hi Hc Hh Hw. destruct Hs as [Hs|Hs]; rewrite Hs; cbn [length Nat.eqb].
  - apply Gu; rewrite Hs; [simpl; repeat split; auto; apply flat_lt; auto|cbn [ravel numel]; ring].
  - apply Gu; rewrite Hs; [simpl; repeat split; auto|cbn [ravel numel]; ring].
Qed.
