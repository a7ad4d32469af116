(** C87: which changes of the logits do not change the model. *)
From Coq Require Import List Arith Lia Bool ZArith Reals Lra FunctionalExtensionality.
Import ListNotations.
From Verif Require Import Base RSum Num Tensor Prob Layers Circuit Net RefFwd Leaf Perm RefLeaf TypeChecks Einet RefNet RefEinet RefEinetS Build RefBuild
  Spec RefPost RefSpec RefPack Ex PropForward RefPerturb RefAlike PropPerturb Save Step RefStep PropStep.
Local Open Scope R_scope.

(** * Specification *)
(** The logits of every sum node are shifted by a number of its own.  The three kinds of weights: (D, O, R, S, S) in einsum layers,
    (D, S, O, R) in linsum and sum layers, (1, K, R) in the mixing layer. *)
Definition node_shift : lrel := fun a b => exists (c5 c4 : nat -> nat -> nat -> R) (c3 : nat -> nat -> R),
  (forall d o r i j, toR (b [d; o; r; i; j]) = toR (a [d; o; r; i; j]) + c5 d o r) /\
  (forall d i o r, toR (b [d; i; o; r]) = toR (a [d; i; o; r]) + c4 d o r) /\
  (forall d y r, toR (b [d; y; r]) = toR (a [d; y; r]) + c3 d y).
Definition shifted_models {V} (o o' : oracle V) : Prop := alike node_shift o o'.
(** The last layer with logits: only layers that multiply come after it. *)
Definition head_at (ls : list layer) (j : nat) : Prop :=
  exists lower hd rts, ls = lower ++ hd :: rts /\ List.length lower = j /\ Forall (fun l => exists D, l = LRoot D) rts.
(** A change of logits that leaves class [c] alone: nothing below the last layer with logits, and nothing of class [c] there or in the
    mixing layer *)
Definition spares {V} (E : einet V) (c : nat) (d : nat -> list nat -> R) (dm : list nat -> R) : Prop :=
  (exists h, head_at (e_layers E) h /\ (forall j idx, (j < h)%nat -> d j idx = 0) /\
    (forall k r i j, d h [k; c; r; i; j] = 0) /\ (forall k i r, d h [k; i; c; r] = 0)) /\
  forall k r, dm [k; c; r] = 0.

(** * Shifts *)
Lemma wsoft_shift n f f' c k : (k < n)%nat -> (forall k, (k < n)%nat -> toR (f' k) = toR (f k) + c) -> near 0 (wsoft n 1 f k) (wsoft n 1 f' k).
Proof.
  intros Hk H. unfold wsoft. replace (rsoftmax n (fun k => toR (f' k) / 1) k) with (rsoftmax n (fun k => toR (f k) / 1) k); [apply near_refl|].
  rewrite <- (rsoftmax_shift n (fun k => toR (f k) / 1) c) by lia. apply rsoftmax_ext; auto. intros j Hj. rewrite H by auto. lra.
Qed.
Lemma layer_shift Rn S l l' : close_layer node_shift l l' -> chain_like Rn (layer_bs 0 l) (layer_us 1 S l) (layer_us 1 S l').
Proof.
  replace (layer_bs 0 l) with (match l with LLin2 _ => [0; 0] | _ => [0] end) by (destruct l; cbn [layer_bs]; rewrite ?Rmult_0_r; reflexivity).
  destruct l as [L|L|L|L|D], l' as [L'|L'|L'|L'|D']; cbn [close_layer layer_us chain_like]; try contradiction.
  - intros (E1 & E2 & E3 & E4 & c5 & c4 & c3 & H5 & H4 & H3). split; [|exact I].
    split; unfold einsum_u, einsum_features_out; cbn [uDin uDout uSin uSout uK ukids usel uW]; rewrite <- ?E1, <- ?E2, <- ?E3; auto.
    intros d o r k _ _ _ Hk. unfold einsum_w. rewrite <- E2. apply (wsoft_shift _ _ _ (c5 d o r)); auto.
  - intros (E1 & E2 & E3 & E4 & c5 & c4 & c3 & H5 & H4 & H3). split; [|exact I].
    split; unfold linsum_u, linsum_features_out, linsum_pad; cbn [uDin uDout uSin uSout uK ukids usel uW]; rewrite <- ?E1, <- ?E2, <- ?E3; auto.
    intros d o r k _ _ _ Hk. unfold linsum_w. rewrite <- E2. apply (wsoft_shift _ _ _ (c4 d o r)); auto.
  - intros (E1 & E2 & E3 & E4 & c5 & c4 & c3 & H5 & H4 & H3). split; [|split; [|exact I]].
    + split; unfold sum_u; cbn [uDin uDout uSin uSout uK ukids usel uW]; auto.
      intros d o r k _ _ _ Hk. unfold linsum_w. rewrite <- E2. apply (wsoft_shift _ _ _ (c4 d o r)); auto.
    + split; unfold pairprod_u; cbn [uDin uDout uSin uSout uK ukids usel uW]; rewrite <- ?E1, <- ?E3; auto. intros. apply near_refl.
  - intros (E1 & E2 & E3 & E4 & c5 & c4 & c3 & H5 & H4 & H3). split; [|exact I]. split; unfold sum_u; cbn [uDin uDout uSin uSout uK ukids usel uW]; auto.
    intros d o r k _ _ _ Hk. unfold linsum_w. rewrite <- E2. apply (wsoft_shift _ _ _ (c4 d o r)); auto.
  - intros <-. split; [|exact I]. split; unfold rootprod_u; cbn [uDin uDout uSin uSout uK ukids usel uW]; auto. intros. apply near_refl.
Qed.
Lemma layers_shift Rn ls : forall S ls', Forall2 (close_layer node_shift) ls ls' -> chain_like Rn (layers_bs 0 ls) (layers_us 1 S ls) (layers_us 1 S ls').
Proof.
  induction ls as [|l ls IH]; intros S ls' H; inversion H as [|? l' ? ls1 Hl Hr]; subst; [exact I|]. cbn [layers_us layers_bs flat_map].
  apply chain_like_app; [apply layer_shift; auto|].
  replace (layer_sout S l') with (layer_sout S l); [apply IH; auto|]. destruct l, l'; cbn in Hl |- *; try contradiction; try (unfold close in Hl); tauto.
Qed.
Lemma shift_netlike {V} g (o o' : oracle V) E E' : accepted g o E -> accepted g o' E' -> shifted_models o o' ->
  close_net node_shift E E' /\ netlike 0 0 (layers_bs 0 (e_layers E)) (fnet E) (fnet E').
Proof.
  intros A A' Hw. destruct (build_close node_shift g o o' E E' Hw (ac_build _ _ _ A) (ac_build _ _ _ A')) as (HC & HN). split; auto.
  pose proof (accepted_ok g o E A) as HE.
  constructor; unfold fnet, net_with; cbn [nF nC nL nR nD nCls nls ngroup nmix]; try apply HC.
  - rewrite (cn_L _ _ _ HC). apply layers_shift. apply HC.
  - intros y r Hy Hr. unfold emix. pose proof (cn_mixing _ _ _ HC) as Hm. rewrite (cn_R _ _ _ HC).
    destruct (Nat.ltb_spec 1 (e_R E)) as [H1|H1].
    + destruct (eo_mix E HE H1) as (m & Em & _ & Hs & _). rewrite Em in *. destruct (e_mixing E') as [m'|]; [|destruct Hm].
      destruct Hm as (E1 & E2 & E3 & E4 & c5 & c4 & c3 & H5 & H4 & H3). unfold mixing_w. rewrite <- E2. apply (wsoft_shift _ _ _ (c3 0%nat y)); [rewrite Hs; auto|]. intros; apply H3.
    + destruct (e_mixing E), (e_mixing E'); apply near_refl.
  - rewrite layers_total. lra.
Qed.
Lemma near_zero a b : near 0 a b -> a = b.
Proof. unfold near. rewrite exp_0. lra. Qed.
Lemma shift_value {V} g (o o' : oracle V) E E' x ms n k : accepted g o E -> accepted g o' E' -> shifted_models o o' -> leafE E' = leafE E -> (k < e_K E)%nat ->
  neteval (fnet E') (lval (pdf (leafE E')) (row x ms n)) k = neteval (fnet E) (lval (pdf (leafE E)) (row x ms n)) k.
Proof.
  intros A A' Hw Hl Hk. destruct (shift_netlike g o o' E E' A A' Hw) as (HC & HN). symmetry. apply near_zero. rewrite Hl.
  replace 0 with (0 + 0 + rsum (nF (fnet E)) (fun f => rsum (nC (fnet E)) (fun c => 0))).
  - apply (neteval_near 0 0 (layers_bs 0 (e_layers E)) (fnet E) (fnet E') _ _ (fun _ _ => 0) k (fnet_wf E (accepted_ok _ _ _ A)) (fnet_wf E' (accepted_ok _ _ _ A')) HN Hk).
    intros c f l r _ _ _ _. split; [apply lval_pos|]. split; [apply lval_pos|apply near_refl].
  - rewrite (rsum_ext _ _ (fun _ => 0)) by (intros; apply rsum_zero). rewrite rsum_zero. lra.
Qed.
Lemma shift_evidence {V} g (o o' : oracle V) E E' N x ms : accepted g o E -> accepted g o' E' -> shifted_models o o' -> leafE E' = leafE E -> evidence E N x ms -> evidence E' N x ms.
Proof.
  intros A A' Hw Hl. destruct (shift_netlike g o o' E E' A A' Hw) as (HC & _).
  unfold evidence, batch, scopes_ok. rewrite (cn_F _ _ _ HC), (cn_C _ _ _ HC), Hl. auto.
Qed.

(** Log-likelihoods of complete and of partial data *)
Theorem C87_shift : forall V g (o o' : oracle V) E E' N x ms,
  accepted g o E -> accepted g o' E' -> shifted_models o o' -> leafE E' = leafE E -> evidence E N x ms ->
  exists y y', forward E x ms = Ok y /\ forward E' x ms = Ok y' /\ shape y = shape y' /\
    forall n k, (n < N)%nat -> (k < e_K E)%nat -> isfin (get y [n; k]) = true /\ get y' [n; k] = get y [n; k].
Proof.
  intros V g o o' E E' N x ms A A' Hw Hl He.
  pose proof (accepted_ok g o E A) as HE. pose proof (accepted_ok g o' E' A') as HE'.
  pose proof (shift_evidence g o o' E E' N x ms A A' Hw Hl He) as He'. destruct (shift_netlike g o o' E E' A A' Hw) as (HC & _).
  destruct (forward_rep E HE N x ms (evidence_input E N x ms He)) as (y & Ey & Sy & Gy).
  destruct (forward_rep E' HE' N x ms (evidence_input E' N x ms He')) as (y' & Ey' & Sy' & Gy').
  exists y, y'. split; auto. split; auto. split; [rewrite Sy, Sy', (cn_K _ _ _ HC); auto|].
  intros n k Hn Hk. assert (Hk': (k < e_K E')%nat) by (rewrite (cn_K _ _ _ HC); auto).
  rewrite Gy, Gy' by auto. split; [reflexivity|]. do 2 f_equal. apply (shift_value g o o' E E'); auto.
Qed.
Print Assumptions C87_shift.

(** Class probabilities *)
Theorem C87_posterior : forall V g (o o' : oracle V) E E' N x,
  accepted g o E -> accepted g o' E' -> shifted_models o o' -> leafE E' = leafE E -> batch E N x -> (1 < e_K E)%nat ->
  exists p p', posterior E x = Ok p /\ posterior E' x = Ok p' /\
    forall n k, (n < N)%nat -> (k < e_K E)%nat -> isfin (get p [n; k]) = true /\ get p' [n; k] = get p [n; k].
Proof.
  intros V g o o' E E' N x A A' Hw Hl Hb HK. assert (He: evidence E N x None) by (split; [auto|exact I]).
  destruct (C87_shift V g o o' E E' N x None A A' Hw Hl He) as (y & y' & Ey & Ey' & SS & B).
  destruct (shift_netlike g o o' E E' A A' Hw) as (HC & _).
  destruct (C05_forward_total V g o E N x A Hb) as (z & Ez & Sz & _). rewrite Ey in Ez. injection Ez as <-.
  assert (Sz': shape y' = [N; e_K E]) by congruence.
  unfold posterior. rewrite Ey, Ey', (cn_K _ _ _ HC).
  assert (HK1: (1 <? e_K E)%nat = true) by (apply Nat.ltb_lt; auto). rewrite HK1. cbn [assert guard bind].
  assert (Hfin: forall a, isfin a = true -> a = Fin (toR a)) by (intros []; try discriminate; reflexivity).
  destruct (posterior_of_ok y N (e_K E) (fun n k => toR (get y [n; k])) ltac:(lia) Sz) as (p & Ep & _ & Gp).
  { intros n k Hn Hk. apply Hfin. apply (B n k Hn Hk). }
  destruct (posterior_of_ok y' N (e_K E) (fun n k => toR (get y [n; k])) ltac:(lia) Sz') as (p' & Ep' & _ & Gp').
  { intros n k Hn Hk. rewrite (proj2 (B n k Hn Hk)). apply Hfin. apply (B n k Hn Hk). }
  exists p, p'. split; auto. split; auto. intros n k Hn Hk. rewrite Gp, Gp' by auto. split; reflexivity.
Qed.
Print Assumptions C87_posterior.

(** Samples of networks whose sampling law is their likelihood (C07) *)
Theorem C87_sampling : forall g o o' (E E' : einet nat) B N xs,
  accepted g o E -> accepted g o' E' -> shifted_models o o' -> leafE E' = leafE E -> consistent g ->
  discrete_leaf B (leafE E) -> lf_ctx (leafE E) = true -> e_K E = 1%nat -> (0 < N)%nat ->
  (forall n c f, (n < N)%nat -> (c < e_C E)%nat -> (f < e_F E)%nat -> (xs n c f < B)%nat) ->
  Pr B (leafE E') (sample E' (mkArgs (Some N) CNone None false false 1 None)) (rows_are N (e_C E) (e_F E) xs) =
  Pr B (leafE E) (sample E (mkArgs (Some N) CNone None false false 1 None)) (rows_are N (e_C E) (e_F E) xs).
Proof.
  intros g o o' E E' B N xs A A' Hw Hl Hco HB Hx HK HN Hxs. destruct (shift_netlike g o o' E E' A A' Hw) as (HC & _).
  rewrite (free_single g o E B A Hco HB Hx N xs HK HN Hxs).
  assert (HK': e_K E' = 1%nat) by (rewrite (cn_K _ _ _ HC); auto).
  assert (Hxs': forall n c f, (n < N)%nat -> (c < e_C E')%nat -> (f < e_F E')%nat -> (xs n c f < B)%nat) by (rewrite (cn_C _ _ _ HC), (cn_F _ _ _ HC); auto).
  assert (HB': discrete_leaf B (leafE E')) by (rewrite Hl; auto). assert (Hx': lf_ctx (leafE E') = true) by (rewrite Hl; auto).
  pose proof (free_single g o' E' B A' Hco HB' Hx' N xs HK' HN Hxs') as P'. rewrite (cn_C _ _ _ HC), (cn_F _ _ _ HC) in P'. rewrite P'.
  apply rprod_ext. intros n Hn.
  assert (Hb: batch E 1 (one_row (e_C E) (e_F E) (xs n))).
  { split; [right; left; reflexivity|]. intros n0 c f v _ Hc Hf Hv. cbn [entry one_row ix shape get] in Hv. injection Hv as <-.
    rewrite (dl_supp B _ HB). apply Nat.ltb_lt. auto. }
  destruct (C87_shift nat g o o' E E' 1 _ None A A' Hw Hl (conj Hb I)) as (y & y' & Ey & Ey' & _ & Bd).
  unfold lik. rewrite Ey, Ey'. f_equal. apply (Bd 0%nat 0%nat); lia.
Qed.
Print Assumptions C87_sampling.

(** * Classes *)
(** Values of class [c] *)
Definition same_class (c : nat) (v v' : vals) : Prop := forall d r, v d c r = v' d c r.
Lemma same_class_root D S c v v' : same_class c v v' -> same_class c (ueval (rootprod_u D S) v) (ueval (rootprod_u D S) v').
Proof.
  intros H d r. unfold ueval, rootprod_u, uprod. cbn [uK uW usel ukids]. apply rsum_ext. intros k _. f_equal. apply lprod_ext. intros d' _. apply H.
Qed.
Lemma same_class_pair D S c v v' : same_class c v v' -> same_class c (ueval (pairprod_u D S) v) (ueval (pairprod_u D S) v').
Proof.
  intros H d r. unfold ueval, pairprod_u, uprod. cbn [uK uW usel ukids]. apply rsum_ext. intros k _. f_equal. apply lprod_ext. intros d' _. apply H.
Qed.
Lemma step_get (L : slay) d idx : d idx = 0 -> get (logits (step_slay L d)) idx = get (logits L) idx.
Proof. intros H. cbn [step_slay logits add_to get]. rewrite H. destruct (get (logits L) idx); cbn [nadd]; auto. rewrite Rplus_0_r. reflexivity. Qed.
Lemma same_class_head S l d c v : (forall k r i j, d [k; c; r; i; j] = 0) -> (forall k i r, d [k; i; c; r] = 0) ->
  same_class c (evals (layer_us 1 S (step_layer l d)) v) (evals (layer_us 1 S l) v).
Proof.
  intros H5 H4.
  assert (LW: forall L d0 r k, linsum_w (step_slay L d) 1 d0 c r k = linsum_w L 1 d0 c r k).
  { intros L d0 r k. unfold linsum_w. cbn [sin step_slay]. f_equal. apply functional_extensionality. intros i. apply step_get. auto. }
  destruct l as [L|L|L|L|D]; unfold evals; cbn [step_layer layer_us fold_left].
  - intros d0 r. unfold ueval, einsum_u. cbn [uK uW]. apply rsum_ext. intros k _. cbn [sin step_slay]. f_equal.
    unfold einsum_w. cbn [sin step_slay]. f_equal. apply functional_extensionality. intros i. apply step_get. auto.
  - intros d0 r. unfold ueval, linsum_u. cbn [uK uW]. apply rsum_ext. intros k _. f_equal. apply LW.
  - apply same_class_pair. intros d0 r. unfold ueval, sum_u. cbn [uK uW]. apply rsum_ext. intros k _. f_equal. apply LW.
  - intros d0 r. unfold ueval, sum_u. cbn [uK uW]. apply rsum_ext. intros k _. f_equal. apply LW.
  - intros d0 r. reflexivity.
Qed.
Lemma same_class_roots rts d c : Forall (fun l => exists D, l = LRoot D) rts -> forall j S v v', same_class c v v' ->
  same_class c (evals (layers_us 1 S (step_layers j rts d)) v) (evals (layers_us 1 S rts) v').
Proof.
  induction 1 as [|l rts (D & ->) _ IH]; intros j S v v' H; [exact H|].
  cbn [step_layers step_layer layers_us layer_us layer_sout app]. unfold evals. cbn [fold_left]. apply IH. apply same_class_root. exact H.
Qed.
Lemma layers_us_app T a : forall S b, layers_us T S (a ++ b) = layers_us T S a ++ layers_us T (fold_left layer_sout a S) b.
Proof. induction a as [|l a IH]; intros S b; [reflexivity|]. cbn [app layers_us fold_left]. rewrite IH, app_assoc. reflexivity. Qed.
Lemma step_layers_zero ls d : forall j, (forall i idx, (i < j + List.length ls)%nat -> d i idx = 0) -> step_layers j ls d = ls.
Proof.
  induction ls as [|l ls IH]; intros j H; cbn [step_layers]; auto. cbn [List.length] in H. rewrite IH by (intros; apply H; lia). f_equal.
  assert (SL: forall L, step_slay L (d j) = L) by (intros L; unfold step_slay; rewrite add_zero by (intros; apply H; lia); destruct L; reflexivity).
  destruct l; cbn [step_layer]; rewrite ?SL; reflexivity.
Qed.
Lemma head_sout S l d : layer_sout S (step_layer l d) = layer_sout S l.
Proof. destruct l; reflexivity. Qed.
Lemma class_value {V} (E : einet V) c d dm q : spares E c d dm ->
  neteval (fnet (step_net E d dm (leafE E))) q c = neteval (fnet E) q c.
Proof.
  intros ((h & (lower & hd & rts & El & Eh & Hr) & H1 & H2 & H3) & Hm).
  assert (FG: fgrp (step_net E d dm (leafE E)) = fgrp E /\ leaf_out (step_net E d dm (leafE E)) = leaf_out E).
  { unfold fgrp, leaf_out, step_net, with_leaf. cbn [e_leaf e_F e_perm]. destruct (e_leaf E); split; reflexivity. }
  destruct FG as (FG & FO).
  unfold neteval, fnet, net_with. rewrite FG, FO. cbn [nR nmix nls]. cbn [step_net with_leaf e_R e_L e_layers e_F e_C e_K]. apply rsum_ext. intros r _. f_equal.
  - unfold emix. cbn [step_net with_leaf e_mixing e_R]. destruct (e_mixing E) as [m|]; cbn [option_map]; auto. destruct (1 <? e_R E)%nat; auto.
    unfold mixing_w. cbn [step_slay sin]. f_equal. apply functional_extensionality. intros i. apply step_get. auto.
  - unfold leafval. cbn [nF nC ngroup]. rewrite El, step_layers_app, (step_layers_zero lower d) by (intros; apply H1; cbn in *; lia).
    cbn [Nat.add step_layers]. rewrite Eh.
    rewrite !layers_us_app, !evals_app. cbn [layers_us]. rewrite !evals_app, head_sout. apply same_class_roots; auto. apply same_class_head; auto.
Qed.
Lemma step_close {V} (E : einet V) d dm : e_F (step_net E d dm (leafE E)) = e_F E /\ e_C (step_net E d dm (leafE E)) = e_C E /\ e_K (step_net E d dm (leafE E)) = e_K E.
Proof. repeat split. Qed.

(** Log-likelihoods of class [c] do not depend on the heads of the other classes; the step model is the one of C81. *)
Theorem C87_classes : forall V g (o : oracle V) E c d dm N x ms, accepted g o E -> spares E c d dm -> evidence E N x ms -> (c < e_K E)%nat ->
  let E' := step_net E d dm (leafE E) in
  exists y y', forward E x ms = Ok y /\ forward E' x ms = Ok y' /\
    forall n, (n < N)%nat -> isfin (get y [n; c]) = true /\ get y' [n; c] = get y [n; c].
Proof.
  intros V g o E c d dm N x ms A Hs He Hc E'. pose proof (accepted_ok g o E A) as HE.
  assert (A': accepted g (moved g o d dm (leafE E)) E').
  { apply moved_ok; auto. destruct (leaf_sizes g o E A) as (H & _). repeat split; auto; apply H. }
  pose proof (accepted_ok _ _ _ A') as HE'. assert (Hl: leafE E' = leafE E) by apply step_leaf.
  assert (He': evidence E' N x ms) by (revert He; unfold evidence, batch, scopes_ok; rewrite Hl; auto).
  destruct (forward_rep E HE N x ms (evidence_input E N x ms He)) as (y & Ey & _ & Gy).
  destruct (forward_rep E' HE' N x ms (evidence_input E' N x ms He')) as (y' & Ey' & _ & Gy').
  exists y, y'. split; auto. split; auto. intros n Hn. rewrite Gy, Gy' by auto. split; [reflexivity|]. do 2 f_equal.
  fold (leafE E'). rewrite Hl. apply class_value; auto.
Qed.
Print Assumptions C87_classes.
(** Every network that can be built has such a head. *)
Theorem C87_head : forall V g (o : oracle V) E, accepted g o E -> exists h, head_at (e_layers E) h /\
  h = match g_struct g with STopDown => (List.length (e_layers E) - 1)%nat | _ => (List.length (e_layers E) - 2)%nat end.
Proof.
  intros V g o E A. pose proof (ac_build _ _ _ A) as H. unfold build in H. apply bind_ok in H as ([] & _ & H). destruct (g_struct g); [| |discriminate].
  - unfold build_top_down in H.
    apply bind_ok in H as (ls & Hls & H). apply bind_ok in H as (ls1 & Hls1 & H). apply bind_ok in H as (l & Hl & H).
    apply bind_ok in H as (lf & Hlf & H). apply bind_ok in H as (m & Hm & H). apply bind_ok in H as (r & Hr & H). injection H as <-. cbn [e_layers].
    destruct ls1 as [|a ls1]; [discriminate Hl|]. cbn [rev]. exists (List.length (rev ls1)). split.
    + exists (rev ls1), a, []. repeat split; auto.
    + rewrite app_length. cbn. lia.
  - unfold build_bottom_up in H.
    apply bind_ok in H as (ls & Hls & H). apply bind_ok in H as (ls1 & Hls1 & H). apply bind_ok in H as (u & Hu & H). apply bind_ok in H as (l & Hl & H).
    apply bind_ok in H as (rs & Hrs & H). apply bind_ok in H as (lf & Hlf & H). apply bind_ok in H as (m & Hm & H). apply bind_ok in H as (r & Hr & H). injection H as <-. cbn [e_layers].
    exists (List.length ls). split.
    + exists ls, (LSum rs), [LRoot (layer_nfo l)]. repeat split; auto. repeat constructor. eexists; reflexivity.
    + rewrite app_length. cbn. lia.
Qed.
Print Assumptions C87_head.

(** ** Concrete case: shifted logits of a network on 5 features in 2 channels with 3 classes and 2 repetitions *)
Definition raised (idx : list nat) : num :=
  match idx with
  | [d; o; r; i; j] => Fin (INR (list_sum idx) + INR d - 3 * INR r + INR o)
  | [d; y; r] => Fin (INR (list_sum idx) + 7 * INR y)
  | _ => grow idx
  end.
Definition ex_raised_o : oracle nat :=
  mkOracle (fun i idx => raised idx) raised raised grow [1; 2; 1; 1]%nat ex_td_perm (fun F C L Rn => Ok (coin third F C L Rn)).
Lemma raised_fin idx : isfin (raised idx) = true.
Proof. destruct idx as [|? [|? [|? [|? [|? [|? ?]]]]]]; reflexivity. Qed.
Lemma ex_raised_oracle : oracle_ok ex_td_g ex_raised_o.
Proof.
  pose proof ex_td_oracle as H. split; cbn [ex_raised_o o_logits o_top o_mix o_root o_sizes o_perm o_leaf]; try (intros; apply raised_fin); try (intros; reflexivity).
  - apply (ok_sizes _ _ H).
  - apply (ok_perm _ _ H).
  - eexists. split; [reflexivity|]. split; [apply coin_ok; intros; apply third_ok|]. repeat split.
Qed.
Lemma ex_leaf (o : oracle nat) E : o_leaf o = (fun F C L Rn => Ok (coin third F C L Rn)) -> accepted ex_td_g o E -> leafE E = coin third 5 2 2 2.
Proof.
  intros Ho A. pose proof (ac_build _ _ _ A) as HE. unfold build in HE. apply bind_ok in HE as ([] & _ & HE). cbn [ex_td_g plain g_struct] in HE. unfold build_top_down in HE.
  apply bind_ok in HE as (? & _ & HE). apply bind_ok in HE as (? & _ & HE). apply bind_ok in HE as (? & _ & HE).
  apply bind_ok in HE as (lf & Hl & HE). apply bind_ok in HE as (? & _ & HE). apply bind_ok in HE as (? & _ & HE).
  inversion HE. unfold leafE. cbn [e_leaf]. unfold build_input in Hl. rewrite Ho in Hl.
  unfold ex_td_g, plain in Hl. cbn [g_F g_C g_L g_R] in Hl. rewrite !nval_nat in Hl. cbn [bind Nat.eqb] in Hl. inversion Hl. reflexivity.
Qed.
Lemma ex_raised_build : exists E, accepted ex_td_g ex_raised_o E.
Proof.
  destruct (build_succeeds ex_td_g ex_raised_o) as (E & HE).
  - apply plain_valid; try lia; try lra; try congruence. simpl; lia.
  - reflexivity.
  - apply ex_raised_oracle.
  - exists 0%R. split; [constructor|lra].
  - cbn [ex_td_g plain g_depth zval]. lia.
  - discriminate.
  - exists E. split; [reflexivity|apply ex_raised_oracle|exact HE].
Qed.
Lemma raised_shift i : node_shift (fun idx => grow (i :: idx)) raised.
Proof.
  exists (fun d o r => INR d - 3 * INR r + INR o - INR i), (fun _ _ _ => - INR i), (fun _ y => 7 * INR y - INR i).
  assert (G: forall idx, toR (grow (i :: idx)) = INR i + INR (list_sum idx)) by (intros idx; unfold grow; cbn [toR list_sum fold_right]; apply plus_INR).
  split; [|split]; intros; rewrite G; unfold raised, grow; cbn [toR]; lra.
Qed.
Lemma ex_shifted : shifted_models ex_td_o ex_raised_o.
Proof.
  split; cbn [ex_td_o ex_raised_o choices o_logits o_top o_mix o_sizes o_perm]; auto; [intros i; apply raised_shift| |].
  - apply (raised_shift 0).
  - apply (raised_shift 0).
Qed.
(** Raising the logits of classes 0 and 1 in the last layer and in the mixing layer *)
Definition ex_others (j : nat) (idx : list nat) : R := match j, idx with 1%nat, [_; c; _; i; _] => if (c =? 2)%nat then 0 else INR i | _, _ => 0 end.
Definition ex_others_mix (idx : list nat) : R := match idx with [_; c; r] => if (c =? 2)%nat then 0 else INR (c + r) | _ => 0 end.
Example C87_ex : exists E E', accepted ex_td_g ex_td_o E /\ accepted ex_td_g ex_raised_o E' /\ shifted_models ex_td_o ex_raised_o /\ leafE E' = leafE E /\
  spares E 2 ex_others ex_others_mix /\
  exists y y' y'', forward E (two_rows 2 5 ex_missing) None = Ok y /\ forward E' (two_rows 2 5 ex_missing) None = Ok y' /\
    forward (step_net E ex_others ex_others_mix (leafE E)) (two_rows 2 5 ex_missing) None = Ok y'' /\
    get y' [1; 2]%nat = get y [1; 2]%nat /\ get y'' [1; 2]%nat = get y [1; 2]%nat.
Proof.
  destruct ex_td as (E & A & HF & HC & HR & HK & D & _). destruct ex_raised_build as (E' & A').
  assert (L: leafE E' = leafE E) by (rewrite (ex_leaf ex_td_o E eq_refl A), (ex_leaf ex_raised_o E' eq_refl A'); reflexivity).
  assert (SP: spares E 2 ex_others ex_others_mix).
  { split; [|reflexivity]. destruct (C87_head nat _ _ E A) as (h & Hh & Eh). exists h. split; auto.
    assert (h = 1%nat) as ->.
    { cbn [ex_td_g plain g_struct] in Eh. rewrite Eh. pose proof (ac_build _ _ _ A) as H. unfold build in H. apply bind_ok in H as ([] & _ & H). cbn [ex_td_g plain g_struct] in H. unfold build_top_down in H.
      apply bind_ok in H as (ls & Hls & H). apply bind_ok in H as (ls1 & Hls1 & H). apply bind_ok in H as (l & Hl & H).
      apply bind_ok in H as (lf & Hlf & H). apply bind_ok in H as (m & Hm & H). apply bind_ok in H as (r & Hr & H). injection H as <-. cbn [e_layers].
      cbn [ex_td_g plain g_depth zval Z.of_nat Z.eqb] in Hls1. injection Hls1 as <-. rewrite rev_length.
      assert (LN: forall (f : nat -> res layer) l b, mapM f l = Ok b -> List.length b = List.length l).
      { intros f l0. induction l0 as [|a l0 IH]; intros b Hb; cbn [mapM] in Hb; [injection Hb as <-; reflexivity|].
        apply bind_ok in Hb as (y & _ & Hb). apply bind_ok in Hb as (r0 & Hr0 & Hb). injection Hb as <-. cbn. f_equal. auto. }
      rewrite (LN _ _ _ Hls), seq_length. reflexivity. }
    split; [|split].
    - intros j idx Hj. destruct j; [reflexivity|lia].
    - intros k r i j. reflexivity.
    - intros k i r. reflexivity. }
  assert (He: evidence E 2 (two_rows 2 5 ex_missing) None).
  { split; [|exact I]. apply two_rows_batch; auto; [intros u; apply (dl_supp 2 _ D)|exact ex_missing_lt]. }
  exists E, E'. split; auto. split; auto. split; [exact ex_shifted|]. split; auto. split; auto.
  destruct (C87_shift nat _ _ _ E E' 2 _ None A A' ex_shifted L He) as (y & y' & Ey & Ey' & _ & H).
  destruct (C87_classes nat _ _ E 2 _ _ 2 _ None A SP He ltac:(lia)) as (z & y'' & Ez & Ey'' & H2). rewrite Ey in Ez. injection Ez as <-.
  exists y, y', y''. split; auto. split; auto. split; auto. split; [apply (H 1%nat 2%nat); lia|apply (H2 1%nat); lia].
Qed.
