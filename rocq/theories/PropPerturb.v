(** C71: small changes of the parameters change log-likelihoods little. *)
From Coq Require Import List Arith Lia Bool ZArith Reals Lra FunctionalExtensionality.
Import ListNotations.
From Verif Require Import Base RSum Num Tensor Prob Layers Circuit Net RefFwd Leaf Perm RefLeaf TypeChecks Einet RefNet RefEinet RefEinetS Build RefBuild
  Spec RefPost RefSpec RefPack Ex PropForward RefPerturb RefAlike.
Local Open Scope R_scope.

(** * Specification *)
(** With several repetitions, the mixing node is one more. *)
Definition nodes (g : config) : nat := (sum_nodes g + if (1 <? nval (g_R g))%nat then 1 else 0)%nat.
Definition logits_within (delta : R) (a b : list nat -> num) : Prop := forall i, Rabs (toR (a i) - toR (b i)) <= delta.
(** Two models of one configuration with the same structure whose logits differ by at most [delta]. *)
Definition within {V} (delta : R) (o o' : oracle V) : Prop := alike (logits_within delta) o o'.
(** Leaves with the same support whose log-probabilities differ by at most [eps]. *)
Definition leaves_within {V} (eps : R) (a b : bleaf V) : Prop :=
  (forall v, lf_supp b v = lf_supp a v) /\
  forall c f l r v, (c < lf_C a)%nat -> (f < lf_F a)%nat -> (l < lf_L a)%nat -> (r < lf_R a)%nat -> lf_supp a v = true ->
    Rabs (toR (lf_logp a [c; f; l; r] v) - toR (lf_logp b [c; f; l; r] v)) <= eps.
(** Number of observed entries of row [n]. *)
Definition count_observed {V} (E : einet V) (x : tensor (option V)) (ms : option (list nat)) (n : nat) : R :=
  rsum (e_F E) (fun f => rsum (e_C E) (fun c => match observed x ms n c f with Some _ => 1 | None => 0 end)).

(** * Layers *)
Definition layer_bs (delta : R) (l : layer) : list R :=
  match l with LEin _ | LLin _ | LSum _ => [2 * delta] | LLin2 _ => [2 * delta; 0] | LRoot _ => [0] end.
Definition layers_bs (delta : R) (ls : list layer) : list R := flat_map (layer_bs delta) ls.

Lemma wsoft_near n delta f f' k : (k < n)%nat -> (forall k, (k < n)%nat -> Rabs (toR (f k) - toR (f' k)) <= delta) ->
  near (2 * delta) (wsoft n 1 f k) (wsoft n 1 f' k).
Proof. intros Hk H. unfold wsoft. apply near_softmax; auto. intros j Hj. unfold Rdiv. rewrite Rinv_1, !Rmult_1_r. auto. Qed.
Lemma near_one : near 0 1 1.
Proof. apply near_refl. Qed.
Lemma layer_like Rn delta S l l' : close_layer (logits_within delta) l l' -> chain_like Rn (layer_bs delta l) (layer_us 1 S l) (layer_us 1 S l').
Proof.
  destruct l as [L|L|L|L|D], l' as [L'|L'|L'|L'|D']; cbn [close_layer layer_us layer_bs chain_like]; try contradiction.
  - intros (E1 & E2 & E3 & E4 & H). split; [|exact I]. split; unfold einsum_u, einsum_features_out; cbn [uDin uDout uSin uSout uK ukids usel uW]; rewrite <- ?E1, <- ?E2, <- ?E3; auto.
    intros d o r k _ _ _ Hk. unfold einsum_w. rewrite <- E2. apply wsoft_near; auto.
  - intros (E1 & E2 & E3 & E4 & H). split; [|exact I]. split; unfold linsum_u, linsum_features_out, linsum_pad; cbn [uDin uDout uSin uSout uK ukids usel uW]; rewrite <- ?E1, <- ?E2, <- ?E3; auto.
    intros d o r k _ _ _ Hk. unfold linsum_w. rewrite <- E2. apply wsoft_near; auto.
  - intros (E1 & E2 & E3 & E4 & H). split; [|split; [|exact I]].
    + split; unfold sum_u; cbn [uDin uDout uSin uSout uK ukids usel uW]; auto.
      intros d o r k _ _ _ Hk. unfold linsum_w. rewrite <- E2. apply wsoft_near; auto.
    + split; unfold pairprod_u; cbn [uDin uDout uSin uSout uK ukids usel uW]; rewrite <- ?E1, <- ?E3; auto. intros. apply near_refl.
  - intros (E1 & E2 & E3 & E4 & H). split; [|exact I]. split; unfold sum_u; cbn [uDin uDout uSin uSout uK ukids usel uW]; auto.
    intros d o r k _ _ _ Hk. unfold linsum_w. rewrite <- E2. apply wsoft_near; auto.
  - intros <-. split; [|exact I]. split; unfold rootprod_u; cbn [uDin uDout uSin uSout uK ukids usel uW]; auto. intros. apply near_refl.
Qed.
Lemma chain_like_app Rn bs1 : forall us1 us1' bs2 us2 us2', chain_like Rn bs1 us1 us1' -> chain_like Rn bs2 us2 us2' ->
  chain_like Rn (bs1 ++ bs2) (us1 ++ us2) (us1' ++ us2').
Proof. induction bs1 as [|b bs1 IH]; intros [|U us1] [|U' us1'] bs2 us2 us2' H H2; try destruct H; cbn; auto. Qed.
Lemma layers_like Rn delta ls : forall S ls', Forall2 (close_layer (logits_within delta)) ls ls' -> chain_like Rn (layers_bs delta ls) (layers_us 1 S ls) (layers_us 1 S ls').
Proof.
  induction ls as [|l ls IH]; intros S ls' H; inversion H as [|? l' ? ls1 Hl Hr]; subst; [exact I|]. cbn [layers_us layers_bs flat_map].
  apply chain_like_app; [apply layer_like; auto|].
  replace (layer_sout S l') with (layer_sout S l); [apply IH; auto|]. destruct l, l'; cbn in Hl |- *; try contradiction; try (unfold close in Hl); tauto.
Qed.
Lemma total_app bs1 : forall us1 bs2 us2, List.length bs1 = List.length us1 -> total (bs1 ++ bs2) (us1 ++ us2) = total bs1 us1 + total bs2 us2.
Proof.
  induction bs1 as [|b bs1 IH]; intros [|U us1] bs2 us2 H; try discriminate H; cbn [app total]; [lra|]. injection H as H. rewrite IH by auto. lra.
Qed.
Lemma layers_total delta ls : forall S, total (layers_bs delta ls) (layers_us 1 S ls) = 2 * delta * INR (list_sum (map layer_sums ls)).
Proof.
  induction ls as [|l ls IH]; intros S; [cbn; lra|]. cbn [layers_us layers_bs flat_map map list_sum fold_right]. 
  rewrite total_app by (destruct l; reflexivity). fold (layers_bs delta ls). rewrite IH. change (fold_right Nat.add 0%nat (map layer_sums ls)) with (list_sum (map layer_sums ls)).
  rewrite plus_INR. destruct l; cbn [layer_bs layer_us total layer_sums]; unfold einsum_u, linsum_u, sum_u, pairprod_u, rootprod_u; cbn [uDout INR]; lra.
Qed.

(** * The network *)
Lemma emix_near {V} delta g (E E' : einet V) y r : 0 <= delta -> einet_ok E -> close_net (logits_within delta) E E' -> e_R E = nval (g_R g) -> (y < e_K E)%nat -> (r < e_R E)%nat ->
  near (2 * delta * INR (if (1 <? nval (g_R g))%nat then 1 else 0)) (emix E 1 y r) (emix E' 1 y r).
Proof.
  intros Hd HE HC ER Hy Hr. unfold emix. pose proof (cn_mixing _ _ _ HC) as Hm. rewrite (cn_R _ _ _ HC), <- ER.
  destruct (Nat.ltb_spec 1 (e_R E)) as [H1|H1].
  - destruct (eo_mix E HE H1) as (m & Em & _ & Hs & _). rewrite Em in *. destruct (e_mixing E') as [m'|]; [|destruct Hm].
    destruct Hm as (E1 & E2 & E3 & E4 & H). cbn [INR]. rewrite Rmult_1_r. unfold mixing_w. rewrite <- E2. apply wsoft_near; [rewrite Hs; auto|]. intros; apply H.
  - cbn [INR]. rewrite Rmult_0_r. destruct (e_mixing E), (e_mixing E'); apply near_refl.
Qed.
Lemma close_netlike {V} delta g (o o' : oracle V) E E' : 0 <= delta -> accepted g o E -> accepted g o' E' -> within delta o o' ->
  netlike (2 * delta * INR (sum_nodes g)) (2 * delta * INR (if (1 <? nval (g_R g))%nat then 1 else 0)) (layers_bs delta (e_layers E)) (fnet E) (fnet E').
Proof.
  intros Hd A A' Hw. destruct (build_close (logits_within delta) g o o' E E' Hw (ac_build _ _ _ A) (ac_build _ _ _ A')) as (HC & HN).
  destruct (build_inv g o E (ac_card _ _ _ A) (ac_oracle _ _ _ A) (ac_build _ _ _ A)) as (HE & EF & EC & ER & EK).
  constructor; unfold fnet, net_with; cbn [nF nC nL nR nD nCls nls ngroup nmix]; try apply HC.
  - rewrite (cn_L _ _ _ HC). apply layers_like. apply HC.
  - intros y r Hy Hr. apply emix_near; auto.
  - rewrite layers_total, HN. lra.
Qed.

Section Net.
Context {V : Type} (g : config) (o o' : oracle V) (E E' : einet V) (delta eps : R).
Hypothesis (A : accepted g o E) (A' : accepted g o' E') (Hw : within delta o o') (Hl : leaves_within eps (leafE E) (leafE E')).

Lemma delta_nonneg : 0 <= delta.
Proof. pose proof (wi_mix _ _ _ Hw []) as H. pose proof (Rabs_pos (toR (o_mix o []) - toR (o_mix o' []))). lra. Qed.
Lemma net_near N x ms n k : evidence E N x ms -> (n < N)%nat -> (k < e_K E)%nat ->
  near (2 * delta * INR (nodes g) + eps * count_observed E x ms n)
    (neteval (fnet E) (lval (pdf (leafE E)) (row x ms n)) k) (neteval (fnet E') (lval (pdf (leafE E')) (row x ms n)) k).
Proof.
  intros He Hn Hk. pose proof delta_nonneg as Hd.
  pose proof (accepted_ok g o E A) as HE. pose proof (accepted_ok g o' E' A') as HE'.
  pose proof (close_netlike delta g o o' E E' Hd A A' Hw) as HN.
  set (e := fun c f => match observed x ms n c f with Some _ => eps | None => 0 end).
  replace (2 * delta * INR (nodes g) + eps * count_observed E x ms n) with
    (2 * delta * INR (sum_nodes g) + 2 * delta * INR (if (1 <? nval (g_R g))%nat then 1 else 0) + rsum (e_F E) (fun f => rsum (e_C E) (fun c => e c f))).
  2:{ unfold nodes, count_observed. rewrite plus_INR, <- rsum_scal_l. rewrite (rsum_ext _ _ (fun f => eps * rsum (e_C E) (fun c => match observed x ms n c f with Some _ => 1 | None => 0 end))); [lra|].
      intros f Hf. rewrite <- rsum_scal_l. apply rsum_ext. intros c Hc. unfold e. destruct (observed x ms n c f); lra. }
  apply (neteval_near _ _ _ _ _ _ _ e k (fnet_wf E HE) (fnet_wf E' HE') HN Hk).
  cbn [fnet net_with nC nF nL nR]. intros c f l r Hc Hf Hl' Hr. unfold lval.
  assert (Er: row x ms n c f = observed x ms n c f) by (unfold row, observed, in_ms; destruct ms; reflexivity).
  unfold e. rewrite <- Er. destruct (row x ms n c f) as [v|] eqn:Ev.
  - unfold pdf. split; [apply exp_pos|]. split; [apply exp_pos|].
    assert (Hs: lf_supp (leafE E) v = true).
    { destruct He as ((_ & Hs) & _). apply (Hs n c f v); auto. unfold row in Ev. destruct (in_ms ms f); [discriminate|auto]. }
    destruct Hl as (_ & Hb). specialize (Hb c f l r v). unfold leafE in Hb. rewrite (eo_lC E HE), (eo_lF E HE), (eo_lL E HE), (eo_lR E HE) in Hb.
    fold (leafE E) in Hb. fold (leafE E') in Hb. specialize (Hb Hc Hf Hl' Hr Hs).
    unfold near. rewrite <- !exp_plus. revert Hb. unfold Rabs. destruct (Rcase_abs _); intros Hb; split; apply exp_le_compat; lra.
  - split; [lra|]. split; [lra|]. apply near_refl.
Qed.
Lemma evidence_other N x ms : evidence E N x ms -> evidence E' N x ms.
Proof.
  destruct (build_close (logits_within delta) g o o' E E' Hw (ac_build _ _ _ A) (ac_build _ _ _ A')) as (HC & _).
  unfold evidence, batch, scopes_ok. rewrite (cn_F _ _ _ HC), (cn_C _ _ _ HC). intros ((H1 & H2) & H3). split; [split; auto|auto].
  intros n c f v Hn Hc Hf Hv. rewrite (proj1 Hl). eauto.
Qed.
End Net.

(** * C71 *)
(** Log-likelihoods of complete and of partial data *)
Theorem C71_loglikelihood : forall V g (o o' : oracle V) E E' delta eps N x ms,
  accepted g o E -> accepted g o' E' -> within delta o o' -> leaves_within eps (leafE E) (leafE E') -> evidence E N x ms ->
  exists y y', forward E x ms = Ok y /\ forward E' x ms = Ok y' /\ forall n k, (n < N)%nat -> (k < e_K E)%nat ->
    isfin (get y [n; k]) = true /\ isfin (get y' [n; k]) = true /\
    Rabs (toR (get y [n; k]) - toR (get y' [n; k])) <= 2 * delta * INR (nodes g) + eps * count_observed E x ms n.
Proof.
  intros V g o o' E E' delta eps N x ms A A' Hw Hl He.
  pose proof (accepted_ok g o E A) as HE. pose proof (accepted_ok g o' E' A') as HE'.
  pose proof (evidence_other g o o' E E' delta eps A A' Hw Hl N x ms He) as He'.
  destruct (build_close (logits_within delta) g o o' E E' Hw (ac_build _ _ _ A) (ac_build _ _ _ A')) as (HC & _).
  destruct (forward_rep E HE N x ms (evidence_input E N x ms He)) as (y & Ey & _ & Gy).
  destruct (forward_rep E' HE' N x ms (evidence_input E' N x ms He')) as (y' & Ey' & _ & Gy').
  exists y, y'. split; auto. split; auto. intros n k Hn Hk. assert (Hk': (k < e_K E')%nat) by (rewrite (cn_K _ _ _ HC); auto).
  rewrite Gy, Gy' by auto. split; [reflexivity|]. split; [reflexivity|]. cbn [toR]. fold (leafE E). fold (leafE E').
  apply near_ln.
  - apply neteval_pos; [apply fnet_wf; auto|auto|]. intros. apply lval_pos.
  - apply neteval_pos; [apply fnet_wf; auto|auto|]. intros. apply lval_pos.
  - apply (net_near g o o' E E' delta eps A A' Hw Hl N); auto.
Qed.
Print Assumptions C71_loglikelihood.

(** Classification with a margin of twice the bound is not affected. *)
Theorem C71_prediction : forall V g (o o' : oracle V) E E' delta eps N x ms y y' n k,
  accepted g o E -> accepted g o' E' -> within delta o o' -> leaves_within eps (leafE E) (leafE E') -> evidence E N x ms ->
  forward E x ms = Ok y -> forward E' x ms = Ok y' -> (n < N)%nat -> (k < e_K E)%nat ->
  (forall j, (j < e_K E)%nat -> j <> k ->
    toR (get y [n; j]) + 2 * (2 * delta * INR (nodes g) + eps * count_observed E x ms n) < toR (get y [n; k])) ->
  forall j, (j < e_K E)%nat -> j <> k -> toR (get y' [n; j]) < toR (get y' [n; k]).
Proof.
  intros V g o o' E E' delta eps N x ms y y' n k A A' Hw Hl He Ey Ey' Hn Hk H j Hj Hne.
  destruct (C71_loglikelihood V g o o' E E' delta eps N x ms A A' Hw Hl He) as (z & z' & Ez & Ez' & B).
  rewrite Ey in Ez. injection Ez as <-. rewrite Ey' in Ez'. injection Ez' as <-.
  destruct (B n j Hn Hj) as (_ & _ & Bj). destruct (B n k Hn Hk) as (_ & _ & Bk). specialize (H j Hj Hne).
  revert Bj Bk. unfold Rabs. destruct (Rcase_abs _), (Rcase_abs _); lra.
Qed.
Print Assumptions C71_prediction.

Theorem C71_posterior : forall V g (o o' : oracle V) E E' delta eps N x,
  accepted g o E -> accepted g o' E' -> within delta o o' -> leaves_within eps (leafE E) (leafE E') -> batch E N x -> (1 < e_K E)%nat ->
  exists p p', posterior E x = Ok p /\ posterior E' x = Ok p' /\ forall n k, (n < N)%nat -> (k < e_K E)%nat ->
    isfin (get p [n; k]) = true /\ isfin (get p' [n; k]) = true /\
    Rabs (toR (get p [n; k]) - toR (get p' [n; k])) <= 2 * (2 * delta * INR (nodes g) + eps * count_observed E x None n).
Proof.
  intros V g o o' E E' delta eps N x A A' Hw Hl Hb HK. assert (He: evidence E N x None) by (split; [auto|exact I]).
  destruct (C71_loglikelihood V g o o' E E' delta eps N x None A A' Hw Hl He) as (y & y' & Ey & Ey' & B).
  pose proof (evidence_other g o o' E E' delta eps A A' Hw Hl N x None He) as He'.
  destruct (build_close (logits_within delta) g o o' E E' Hw (ac_build _ _ _ A) (ac_build _ _ _ A')) as (HC & _).
  destruct (C05_forward_total V g o E N x A Hb) as (z & Ez & Sz & _). rewrite Ey in Ez. injection Ez as <-.
  destruct (C05_forward_total V g o' E' N x A' (proj1 He')) as (z & Ez & Sz' & _). rewrite Ey' in Ez. injection Ez as <-.
  rewrite (cn_K _ _ _ HC) in Sz'. unfold posterior. rewrite Ey, Ey', (cn_K _ _ _ HC).
  assert (HK1: (1 <? e_K E)%nat = true) by (apply Nat.ltb_lt; auto). rewrite HK1. cbn [assert guard bind].
  assert (Hfin: forall a, isfin a = true -> a = Fin (toR a)) by (intros []; try discriminate; reflexivity).
  destruct (posterior_of_ok y N (e_K E) (fun n k => toR (get y [n; k])) ltac:(lia) Sz) as (p & Ep & _ & Gp).
  { intros n k Hn Hk. apply Hfin. apply (B n k Hn Hk). }
  destruct (posterior_of_ok y' N (e_K E) (fun n k => toR (get y' [n; k])) ltac:(lia) Sz') as (p' & Ep' & _ & Gp').
  { intros n k Hn Hk. apply Hfin. apply (B n k Hn Hk). }
  exists p, p'. split; auto. split; auto. intros n k Hn Hk. rewrite Gp, Gp' by auto. split; [reflexivity|]. split; [reflexivity|]. cbn [toR].
  apply near_ln.
  - apply (rsoftmax_pos (e_K E) (fun j => toR (get y [n; j]))). lia.
  - apply (rsoftmax_pos (e_K E) (fun j => toR (get y' [n; j]))). lia.
  - apply (near_softmax (e_K E) (fun j => toR (get y [n; j])) (fun j => toR (get y' [n; j]))); auto. intros j Hj. apply (B n j Hn Hj).
Qed.
Print Assumptions C71_posterior.

(** Samples of networks whose sampling law is their likelihood (C07) *)
Theorem C71_sampling : forall g o o' (E E' : einet nat) B delta eps N xs,
  accepted g o E -> accepted g o' E' -> within delta o o' -> leaves_within eps (leafE E) (leafE E') -> consistent g ->
  discrete_leaf B (leafE E) -> discrete_leaf B (leafE E') -> lf_ctx (leafE E) = true -> lf_ctx (leafE E') = true -> e_K E = 1%nat -> (0 < N)%nat ->
  (forall n c f, (n < N)%nat -> (c < e_C E)%nat -> (f < e_F E)%nat -> (xs n c f < B)%nat) ->
  Pr B (leafE E') (sample E' (mkArgs (Some N) CNone None false false 1 None)) (rows_are N (e_C E) (e_F E) xs) <=
  exp (INR N * (2 * delta * INR (nodes g) + eps * INR (e_F E * e_C E))) *
  Pr B (leafE E) (sample E (mkArgs (Some N) CNone None false false 1 None)) (rows_are N (e_C E) (e_F E) xs).
Proof.
  intros g o o' E E' B delta eps N xs A A' Hw Hl Hco HB HB' Hx Hx' HK HN Hxs.
  destruct (build_close (logits_within delta) g o o' E E' Hw (ac_build _ _ _ A) (ac_build _ _ _ A')) as (HC & _).
  rewrite (free_single g o E B A Hco HB Hx N xs HK HN Hxs).
  assert (HK': e_K E' = 1%nat) by (rewrite (cn_K _ _ _ HC); auto).
  assert (Hxs': forall n c f, (n < N)%nat -> (c < e_C E')%nat -> (f < e_F E')%nat -> (xs n c f < B)%nat) by (rewrite (cn_C _ _ _ HC), (cn_F _ _ _ HC); auto).
  pose proof (free_single g o' E' B A' Hco HB' Hx' N xs HK' HN Hxs') as P'. rewrite (cn_C _ _ _ HC), (cn_F _ _ _ HC) in P'. rewrite P'.
  set (b := 2 * delta * INR (nodes g) + eps * INR (e_F E * e_C E)).
  replace (INR N * b) with (rsum N (fun _ => b)) by (rewrite rsum_const; ring).
  apply (near_rprod N (fun _ => b)). intros n Hn.
  assert (Hb: batch E 1 (one_row (e_C E) (e_F E) (xs n))).
  { split; [right; left; reflexivity|]. intros n0 c f v _ Hc Hf Hv. cbn [entry one_row ix shape get] in Hv. injection Hv as <-.
    rewrite (dl_supp B _ HB). apply Nat.ltb_lt. auto. }
  destruct (C71_loglikelihood nat g o o' E E' delta eps 1 _ None A A' Hw Hl (conj Hb I)) as (y & y' & Ey & Ey' & Bd).
  destruct (Bd 0%nat 0%nat ltac:(lia) ltac:(lia)) as (F1 & F2 & Bd'). unfold lik. rewrite Ey, Ey'.
  destruct (get y [0; 0]%nat) as [a| | |]; try discriminate F1. destruct (get y' [0; 0]%nat) as [a'| | |]; try discriminate F2. cbn [pval toR] in *.
  split; [left; apply exp_pos|]. split; [left; apply exp_pos|].
  assert (Ec: count_observed E (one_row (e_C E) (e_F E) (xs n)) None 0 = INR (e_F E * e_C E)).
  { unfold count_observed. rewrite (rsum_ext _ _ (fun _ => INR (e_C E))); [rewrite rsum_const, mult_INR; ring|].
    intros f Hf. rewrite (rsum_ext _ _ (fun _ => 1)); [rewrite rsum_const; ring|]. intros; reflexivity. }
  rewrite Ec in Bd'. fold b in Bd'. unfold near. rewrite <- !exp_plus. revert Bd'. unfold Rabs. destruct (Rcase_abs _); intros; split; apply exp_le_compat; lra.
Qed.
Print Assumptions C71_sampling.

(** ** Concrete case: two networks on 5 features in 2 channels with 3 classes and 2 repetitions *)
Definition nudged (idx : list nat) : num := if Nat.even (list_sum idx) then Fin (INR (list_sum idx) + 1 / 8) else grow idx.
Definition two_fifths (key : list nat) : R := 2 / 5.
Definition ex_near_o : oracle nat :=
  mkOracle (fun i idx => nudged (i :: idx)) nudged grow grow [1; 2; 1; 1]%nat ex_td_perm (fun F C L Rn => Ok (coin two_fifths F C L Rn)).
Lemma nudged_fin idx : isfin (nudged idx) = true.
Proof. unfold nudged. destruct (Nat.even _); reflexivity. Qed.
Lemma ex_near_oracle : oracle_ok ex_td_g ex_near_o.
Proof.
  pose proof ex_td_oracle as H. split; cbn [ex_near_o o_logits o_top o_mix o_root o_sizes o_perm o_leaf]; try (intros; apply nudged_fin); try (intros; reflexivity).
  - apply (ok_sizes _ _ H).
  - apply (ok_perm _ _ H).
  - eexists. split; [reflexivity|]. split; [apply coin_ok|]. repeat split.
Qed.
Lemma ex_near_build : exists E, accepted ex_td_g ex_near_o E /\ leafE E = coin two_fifths 5 2 2 2.
Proof.
  destruct (build_succeeds ex_td_g ex_near_o) as (E & HE).
  - apply plain_valid; try lia; try lra; try congruence. simpl; lia.
  - reflexivity.
  - apply ex_near_oracle.
  - exists 0%R. split; [constructor|lra].
  - cbn [ex_td_g plain g_depth zval]. lia.
  - discriminate.
  - exists E. split; [split; [reflexivity|apply ex_near_oracle|exact HE]|].
    unfold build in HE. apply bind_ok in HE as ([] & _ & HE). cbn [ex_td_g plain g_struct] in HE. unfold build_top_down in HE.
    apply bind_ok in HE as (? & _ & HE). apply bind_ok in HE as (? & _ & HE). apply bind_ok in HE as (? & _ & HE).
    apply bind_ok in HE as (lf & Hl & HE). apply bind_ok in HE as (? & _ & HE). apply bind_ok in HE as (? & _ & HE).
    inversion HE. unfold leafE. cbn [e_leaf]. unfold build_input in Hl. cbn [ex_near_o o_leaf] in Hl.
    unfold ex_td_g, plain in Hl. cbn [g_F g_C g_L g_R] in Hl. rewrite !nval_nat in Hl. cbn [bind Nat.eqb] in Hl. inversion Hl. reflexivity.
Qed.
Lemma nudged_within idx : Rabs (toR (grow idx) - toR (nudged idx)) <= 1 / 8.
Proof.
  unfold nudged, grow. destruct (Nat.even _); cbn [toR].
  - replace (INR (list_sum idx) - (INR (list_sum idx) + 1 / 8)) with (- (1 / 8)) by lra. rewrite Rabs_Ropp, Rabs_pos_eq; lra.
  - rewrite Rminus_diag_eq, Rabs_R0; lra.
Qed.
Lemma ex_within : within (1 / 8) ex_td_o ex_near_o.
Proof.
  split; cbn [ex_td_o ex_near_o choices o_logits o_top o_mix o_sizes o_perm]; auto; try (intros; intro; apply nudged_within); try (intro; apply nudged_within).
  intros i. rewrite Rminus_diag_eq, Rabs_R0; lra.
Qed.
Lemma ln_ratio a b e : 0 < a -> 0 < b -> a <= b * (1 + e) -> b <= a * (1 + e) -> Rabs (ln a - ln b) <= e.
Proof.
  intros Ha Hb H1 H2. assert (He: 1 + e <= exp e) by apply exp_ineq1_le. apply near_ln; auto. split; nra.
Qed.
Example C71_ex : exists E E', accepted ex_td_g ex_td_o E /\ accepted ex_td_g ex_near_o E' /\ within (1 / 8) ex_td_o ex_near_o /\ leaves_within (1 / 5) (leafE E) (leafE E') /\
  nodes ex_td_g = 4%nat /\
  exists y y', forward E (two_rows 2 5 ex_missing) None = Ok y /\ forward E' (two_rows 2 5 ex_missing) None = Ok y' /\
    Rabs (toR (get y [1; 2]%nat) - toR (get y' [1; 2]%nat)) <= 1 + 1 / 5 * count_observed E (two_rows 2 5 ex_missing) None 1.
Proof.
  destruct ex_td as (E & A & HF & HC & HR & HK & D & _). destruct ex_near_build as (E' & A' & L').
  assert (L: leafE E = coin third 5 2 2 2).
  { pose proof (ac_build _ _ _ A) as HE. unfold build in HE. apply bind_ok in HE as ([] & _ & HE). cbn [ex_td_g plain g_struct] in HE. unfold build_top_down in HE.
    apply bind_ok in HE as (? & _ & HE). apply bind_ok in HE as (? & _ & HE). apply bind_ok in HE as (? & _ & HE).
    apply bind_ok in HE as (lf & Hl & HE). apply bind_ok in HE as (? & _ & HE). apply bind_ok in HE as (? & _ & HE).
    inversion HE. unfold leafE. cbn [e_leaf]. unfold build_input in Hl. cbn [ex_td_o choices o_leaf] in Hl.
    unfold ex_td_g, plain in Hl. cbn [g_F g_C g_L g_R] in Hl. rewrite !nval_nat in Hl. cbn [bind Nat.eqb] in Hl. inversion Hl. reflexivity. }
  assert (W: leaves_within (1 / 5) (leafE E) (leafE E')).
  { rewrite L, L'. split; [reflexivity|]. intros c f l r v _ _ _ _ _. cbn [coin lf_logp toR]. unfold third, two_fifths. destruct (v =? 0)%nat; apply ln_ratio; lra. }
  exists E, E'. split; auto. split; auto. split; [exact ex_within|]. split; auto. split; [reflexivity|].
  assert (He: evidence E 2 (two_rows 2 5 ex_missing) None).
  { split; [|exact I]. apply two_rows_batch; auto; [intros u; apply (dl_supp 2 _ D)|exact ex_missing_lt]. }
  destruct (C71_loglikelihood nat _ _ _ E E' (1 / 8) (1 / 5) 2 _ None A A' ex_within W He) as (y & y' & Ey & Ey' & H).
  exists y, y'. split; auto. split; auto. destruct (H 1%nat 2%nat ltac:(lia) ltac:(lia)) as (_ & _ & H').
  change (nodes ex_td_g) with 4%nat in H'. cbn [INR] in H'. lra.
Qed.
