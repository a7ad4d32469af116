(** C79: mixtures of convolutional circuits. *)
From Coq Require Import List Arith Lia Bool ZArith Reals Lra Permutation FunctionalExtensionality.
Import ListNotations.
From Verif Require Import Base RSum Num Tensor Prob Layers Circuit Net RefFwd RefSample RefLaw Leaf RefLeaf TypeChecks Einet RefEinet RefEinetS Build RefBuild Spec RefSpec RefSpecS RefDensity Mixture RefMixture RefMixLaw PropMix PropMixLaw
  RefLeafS ConvPc RefConv RefConvNet RefConvS PropConv RefConvD RefConvG PropConvG ConvMix RefConvMix PropConvD PropPerturb PropMixOrder Ex.
Local Open Scope R_scope.
Local Arguments Nat.div : simpl never. Local Arguments Nat.modulo : simpl never. Local Arguments Nat.sub : simpl never.
Local Arguments Nat.mul : simpl never. Local Arguments Nat.add : simpl never.

(** * Vocabulary *)
(** A mixture that the constructor returned: [os] are the random choices made for its components. *)
Record conv_mixture_of {V} (nc : pyval) (g : cconfig) (C H W : nat) (os : list (coracle V)) (Ps : list (convpc V)) : Prop := {
  cm_oracles : forall o, In o os -> conv_oracle o;
  cm_channels : Forall (fun c => 0 < c)%nat (cc_channels g);
  cm_enough : (nval nc <= length os)%nat;
  cm_build : conv_mixture_build nc g (Some (C, H, W)) os = Ok Ps }.
(** No component is left with enabled caches, which is so as long as no evidence was given (C41). *)
Definition all_off {V} (Ps : list (convpc V)) (sts : list cstate) : Prop := length sts = length Ps /\ forall st, In st sts -> st_on st = false.
(** exp of the log-likelihood of image [n] under component [c] *)
Definition clik_at {V} (Ps : list (convpc V)) (c : nat) (x : tensor (option V)) (n : nat) : R :=
  match nth_error Ps c with Some P => clik P (fresh_state P) x n | None => 0 end.
(** The law of a leaf draw: the key starts with the component. *)
Definition cmix_draw (Ps : list (convpc nat)) (key : list nat) (v : nat) : R :=
  match key with
  | c :: k => match nth_error Ps c with Some P => leaf_draw (cp_leaf P) k v | None => if (v =? 0)%nat then 1 else 0 end
  | [] => if (v =? 0)%nat then 1 else 0
  end.
Definition PrCMix (B : nat) (Ps : list (convpc nat)) {A} (m : M nat A) (ev : A -> bool) : R :=
  expect (EL_discrete B (cmix_draw Ps)) m (fun a => if ev a then 1 else 0).
(** The product of a test of every pixel of every image *)
Definition images_test (N C H W : nat) (h : nat -> nat -> num -> R) (t : tensor num) : R :=
  rprod N (fun n => rprod C (fun c => rprod (H * W) (fun f => h c f (get t [n; c; f / W; f mod W]%nat)))).

Lemma conv_mixture_components {V} nc g C H W os (Ps : list (convpc V)) : conv_mixture_of nc g C H W os Ps ->
  length Ps = nval nc /\ (0 < length Ps)%nat /\ forall P, In P Ps -> exists o, conv_accepted g C H W o P.
Proof.
  intros [Ho Hc He Hb]. unfold conv_mixture_build in Hb. apply bind_ok in Hb as ([] & Hn & Hb).
  destruct (Base.mapM_ok _ _ _ Hb) as [HL HE].
  assert (HN: (1 <= nval nc)%nat).
  { destruct (check_int_inv nc 1 ltac:(lia) Hn) as (Hz & _). unfold nval. lia. }
  rewrite firstn_length in HL. split; [lia|]. split; [lia|]. intros P Hin.
  apply In_nth_error in Hin as (i & Hi). assert (Hlt: (i < length Ps)%nat) by (apply nth_error_Some; congruence).
  destruct (nth_error (firstn (nval nc) os) i) as [o|] eqn:Eo.
  2: { apply nth_error_None in Eo. rewrite firstn_length in Eo. lia. }
  exists o. split; auto; [|eapply HE; eauto]. apply Ho. apply nth_error_In in Eo. rewrite <- (firstn_skipn (nval nc) os). apply in_or_app. auto.
Qed.
Definition usof {V} (P : convpc V) (T : R) : list ulayer := cls_us T (cp_layers P) (cp_L P) (cp_H P) (cp_W P).
Lemma usof_ok {V} g C H W (o : coracle V) P : conv_accepted g C H W o P -> conv_fits g H W -> conv_ok P (usof P).
Proof.
  intros A HF. destruct (accepted_conv_ok _ _ _ _ _ _ A HF) as (us & HP). replace (usof P) with us; auto. extensionality T.
  apply (clays_fun _ _ _ _ _ _ _ _ (co_clays _ _ HP)).
Qed.

(** * The forward pass *)
(** Row n of the result is the log-likelihood of image n under the component of its cluster, whatever the clusters are;
    the caches stay as they are. *)
Theorem C79_rows : forall V nc g C H W os (Ps : list (convpc V)) predict sts x ms N,
  conv_mixture_of nc g C H W os Ps -> conv_fits g H W -> (forall P, In P Ps -> images P N x) -> (0 < N)%nat ->
  length (predict x ms) = N -> (forall c, In c (predict x ms) -> (c < length Ps)%nat) ->
  exists y, snd (cm_forward Ps predict sts x ms) = Ok y /\ shape y = [N] /\
    (all_off Ps sts -> fst (cm_forward Ps predict sts x ms) = sts) /\
    forall n, (n < N)%nat -> exists P, nth_error Ps (nth n (predict x ms) 0%nat) = Some P /\ get y [n] = Fin (cloglik P (fresh_state P) x n).
Proof.
  intros V nc g C H W os Ps predict sts x ms N HM HF Hx HN HL Hc. destruct (conv_mixture_components _ _ _ _ _ _ _ HM) as (_ & _ & HA).
  destruct (cm_forward_ok Ps usof predict sts x ms N) as (sts' & y & E & Sy & _ & Off & G); auto.
  - intros P Hin. destruct (HA P Hin) as (o & A). eapply usof_ok; eauto.
  - intros P Hin. destruct (HA P Hin) as (o & A). destruct (build_conv_inv _ _ _ _ _ _ A) as (c0 & rest & _ & _ & _ & E & _ & _ & _ & PW & _). lia.
  - exists y. rewrite E. split; auto. split; auto. split; [intros [O1 O2]; apply Off; auto|]. intros n Hn. destruct (G n Hn) as (P & En & Eg). exists P. split; auto.
    rewrite Eg. f_equal. pose proof (nth_error_In _ _ En) as Hin. destruct (HA P Hin) as (o & A). pose proof (usof_ok _ _ _ _ _ _ A HF) as HP.
    unfold cloglik. destruct (conv_forward_ok P (usof P) HP (fresh_state P) N x (Hx P Hin)) as (cas & z & -> & _ & _ & Gz). cbn [snd]. rewrite Gz by auto. reflexivity.
Qed.
Print Assumptions C79_rows.

(** * Sampling *)
Section Law.
Context {V : Type} (nc : pyval) (g : cconfig) (C H W : nat) (os : list (coracle V)) (Ps : list (convpc V)) (sts : list cstate) (val : V -> R) (EL : list nat -> (V -> R) -> R).
Hypothesis (HM : conv_mixture_of nc g C H W os Ps) (HF : conv_fits g H W) (Hctx : forall P, In P Ps -> lf_ctx (cp_leaf P) = true) (Hoff : all_off Ps sts) (HEL : leaf_expectation EL).
Definition one_of (T : R) (k : nat) (h : itest) : R :=
  match nth_error Ps k with
  | Some P => expect (fun key => EL (k :: key)) (snd (conv_sample P val (state_of P sts k) (sums_at 1 T))) (fun t => image_value C H W h (trow t 0))
  | None => 0
  end.
Lemma comp_off P c : nth_error Ps c = Some P -> st_on (state_of P sts c) = false.
Proof. intros En. destruct Hoff as [L O]. apply O. apply nth_In. rewrite L. apply nth_error_Some. congruence. Qed.
Lemma cm_free_law cs T : cs <> [] -> (forall c, In c cs -> (c < length Ps)%nat) -> T <> 0 -> forall h : nat -> itest,
  expect EL (cm_sample_free val Ps sts (fun k => sums_at k T) cs) (fun t => rprod (length cs) (fun n => image_value C H W (h n) (trow t n))) =
  rprod (length cs) (fun n => one_of T (source cs n) (h n)).
Proof.
  intros Hcs Hc HT h. destruct (conv_mixture_components _ _ _ _ _ _ _ HM) as (_ & _ & HA).
  apply (free_rows_law (fun c k => P <~ lift (conv_component Ps c) ;; tag c (snd (conv_sample P val (state_of P sts c) (sums_at k T)))) cs [C; H; W] EL HEL (Fin 0) (image_value C H W) (one_of T)).
  - intros h0 t u. apply image_value_ext.
  - exact Hcs.
  - intros c k Hin Hk. specialize (Hc c Hin). destruct (nth_error Ps c) as [P|] eqn:En; [|apply nth_error_None in En; lia].
    pose proof (nth_error_In _ _ En) as Pin. destruct (HA P Pin) as (o & A). pose proof (usof_ok _ _ _ _ _ _ A HF) as HP.
    destruct (build_conv_inv _ _ _ _ _ _ A) as (c0 & rest & _ & E1 & E2 & E3 & _).
    unfold conv_component. rewrite En. cbn [lift mbind].
    destruct (conv_rows P (usof P) HP (ELc EL c) (ELc_ok EL c HEL) val (state_of P sts c) k T (comp_off P c En) (Hctx P Pin) HT) as [S L]. rewrite E1, E2, E3 in *. split.
    + intros t Ht. apply outcome_tag in Ht. apply S. exact Ht.
    + intros h0. rewrite expect_tag by auto. rewrite L. apply rprod_ext. intros n _. unfold one_of. rewrite En. reflexivity.
Qed.
End Law.
(** Caches that are off do not matter. *)
Lemma one_fresh {V} C H W (Ps : list (convpc V)) sts val EL T k h : all_off Ps sts -> leaf_expectation EL ->
  one_of C H W Ps sts val EL T k h =
  match nth_error Ps k with
  | Some P => expect (fun key => EL (k :: key)) (snd (conv_sample P val (fresh_state P) (mkCA (Some 1%nat) None false false false T))) (images_test 1 C H W h)
  | None => 0
  end.
Proof.
  intros Hoff HEL. unfold one_of. destruct (nth_error Ps k) as [P|] eqn:En; auto.
  assert (ES: forall st, st_on st = false -> snd (conv_sample P val st (sums_at 1 T)) = snd (conv_sample P val (fresh_state P) (sums_at 1 T))).
  { intros st Hs. unfold sums_at, conv_sample. cbn [ca_num ca_ev snd]. unfold conv_free, live. rewrite Hs. reflexivity. }
  rewrite ES by (apply (comp_off Ps sts Hoff P k En)). apply expect_ext; [apply (ELc_ok EL k HEL)|]. intros t.
  unfold images_test. rewrite rprod_S, rprod_0, Rmult_1_l. reflexivity.
Qed.
(** sample(num_samples=n): the product of the same test of every image has the expected value of n independent draws from
    the weighted components, each at temperature_sums = T; any leaves. *)
Theorem C79_law : forall V nc g C H W os (Ps : list (convpc V)) ws predict sts val n cl T ms EL (h : nat -> nat -> num -> R),
  conv_mixture_of nc g C H W os Ps -> conv_fits g H W -> (forall P, In P Ps -> lf_ctx (cp_leaf P) = true) -> all_off Ps sts ->
  (length ws <= length Ps)%nat -> weights_ok ws -> (0 < n)%nat -> T <> 0 -> leaf_expectation EL ->
  expect EL (snd (cm_sample val Ps ws predict sts (mkMArgs (Some n) None cl None false false T ms))) (images_test n C H W h) =
  rsum (length Ps) (fun k => share ws k *
    match nth_error Ps k with
    | Some P => expect (fun key => EL (k :: key)) (snd (conv_sample P val (fresh_state P) (mkCA (Some 1%nat) None false false false T))) (images_test 1 C H W h)
    | None => 0
    end) ^ n.
Proof.
  intros V nc g C H W os Ps ws predict sts val n cl T ms EL h HM HF Hctx Hoff Hl HW Hn HT HEL. destruct (conv_mixture_components _ _ _ _ _ _ _ HM) as (_ & Hpos & HA).
  unfold cm_sample. cbn [m_n m_per m_ev m_class m_mpe m_mpel m_tsum m_ms is_none orb negb snd]. rewrite expect_bind by auto.
  transitivity (expect EL (mix_clusters (length Ps) ws n None false) (fun cs => lprod (fun c => one_of C H W Ps sts val EL T c h) cs)).
  - apply expect_ext_outcome; auto. intros cs Hcs. destruct (clusters_outcome _ _ _ _ _ _ _ Hcs) as (cs' & X & H1 & H2). assert (cs' = cs) by congruence. subst cs'. cbn in H2.
    assert (Hcs0: cs <> []) by (intros Z; rewrite Z in H2; cbn in H2; lia).
    rewrite <- (source_perm cs Hcs0 (fun c => one_of C H W Ps sts val EL T c h)). rewrite <- (cm_free_law nc g C H W os Ps sts val EL HM HF Hctx Hoff HEL cs T Hcs0); auto.
    + rewrite H2. reflexivity.
    + apply H1. pose proof (weights_ne ws HW). lia.
  - rewrite clusters_law by auto. f_equal. rewrite (shares_pad ws (length Ps)) by lia. apply rsum_ext. intros k Hk. unfold share. f_equal. apply one_fresh; auto.
Qed.
Print Assumptions C79_law.

(** The images of one call are reordered by component; up to their order they are independent draws: the mean over all
    orders of the expected value of different tests of the images is the product of the values of single draws. *)
Definition image_tests (C H W : nat) (hs : list (nat -> nat -> num -> R)) (t : tensor num) : R :=
  rprod (length hs) (fun n => rprod C (fun c => rprod (H * W) (fun f => nth n hs (fun _ _ _ => 1) c f (get t [n; c; f / W; f mod W]%nat)))).
Theorem C79_unordered : forall V nc g C H W os (Ps : list (convpc V)) ws predict sts val cl T ms EL (hs : list (nat -> nat -> num -> R)),
  conv_mixture_of nc g C H W os Ps -> conv_fits g H W -> (forall P, In P Ps -> lf_ctx (cp_leaf P) = true) -> all_off Ps sts ->
  (length ws <= length Ps)%nat -> weights_ok ws -> (0 < length hs)%nat -> T <> 0 -> leaf_expectation EL ->
  lsum (fun p => expect EL (snd (cm_sample val Ps ws predict sts (mkMArgs (Some (length hs)) None cl None false false T ms))) (image_tests C H W p)) (arrangements hs) =
  INR (fact (length hs)) * lprod (fun h => rsum (length Ps) (fun k => share ws k *
    match nth_error Ps k with
    | Some P => expect (fun key => EL (k :: key)) (snd (conv_sample P val (fresh_state P) (mkCA (Some 1%nat) None false false false T))) (images_test 1 C H W h)
    | None => 0
    end)) hs.
Proof.
  intros V nc g C H W os Ps ws predict sts val cl T ms EL hs HM HF Hctx Hoff Hl HW Hn HT HEL. destruct (conv_mixture_components _ _ _ _ _ _ _ HM) as (_ & Hpos & HA).
  set (n := length hs) in *. set (phi := fun c h => one_of C H W Ps sts val EL T c h).
  transitivity (lsum (fun p => expect EL (mix_clusters (length Ps) ws n None false) (fun cs => line phi (map (source cs) (seq 0 n)) p)) (arrangements hs)).
  - apply lsum_ext. intros p Hp. apply arrangements_perm, Permutation_length in Hp. fold n in Hp.
    unfold cm_sample. cbn [m_n m_per m_ev m_class m_mpe m_mpel m_tsum m_ms is_none orb negb snd]. rewrite expect_bind by auto.
    apply expect_ext_outcome; auto. intros cs Hcs. destruct (clusters_outcome _ _ _ _ _ _ _ Hcs) as (cs' & X & H1 & H2). assert (cs' = cs) by congruence. subst cs'. cbn in H2.
    assert (Hcs0: cs <> []) by (intros Z; rewrite Z in H2; cbn in H2; lia).
    rewrite <- (line_rprod phi _ p (source cs 0) (fun _ _ _ => 1)) by (rewrite map_length, seq_length; auto).
    assert (Lp: length p = length cs) by lia. unfold image_tests. rewrite Lp.
    etransitivity; [exact (cm_free_law nc g C H W os Ps sts val EL HM HF Hctx Hoff HEL cs T Hcs0 (H1 ltac:(pose proof (weights_ne ws HW); lia)) HT (fun i => nth i p (fun _ _ _ => 1)))|].
    cbv [itest]. rewrite Lp. apply rprod_ext. intros i Hi. rewrite (map_nth (source cs)), seq_nth by lia. reflexivity.
  - rewrite clusters_plus by auto.
    transitivity (expect EL (mix_clusters (length Ps) ws n None false) (fun cs => lsum (fun p => line phi cs p) (arrangements hs))).
    + apply expect_ext_outcome; auto. intros cs Hcs. destruct (clusters_outcome _ _ _ _ _ _ _ Hcs) as (cs' & X & H1 & H2). assert (cs' = cs) by congruence. subst cs'. cbn in H2.
      assert (Hcs0: cs <> []) by (intros Z; rewrite Z in H2; cbn in H2; lia).
      assert (P: Permutation (map (source cs) (seq 0 n)) cs).
      { rewrite <- H2. unfold source. destruct (permutation_of_any cs Hcs0) as (perm & Ep & Pp). rewrite Ep.
        assert (LC: length (comps (separate 0 cs [])) = length cs) by (apply Permutation_length, comps_perm).
        apply Permutation_trans with (comps (separate 0 cs [])); [|apply comps_perm].
        rewrite <- (map_map (fun i => nth i perm 0%nat) (fun j => nth j (comps (separate 0 cs [])) 0%nat)).
        assert (Q: map (fun i => nth i perm 0%nat) (seq 0 (length cs)) = perm).
        { rewrite <- (seq_length (length cs) 0), <- (Permutation_length Pp). apply map_nth_seq. }
        rewrite Q. rewrite <- (map_nth_seq (comps (separate 0 cs []))) at 1. rewrite LC. apply Permutation_map. exact Pp. }
      pose proof (permanent_perm phi _ _ P hs) as Q. unfold permanent in Q. rewrite (Permutation_length P), H2 in Q. exact Q.
    + rewrite <- clusters_plus by auto.
      set (m := fun h => rsum (length ws) (fun k => nth k ws 0 / lsum (fun w => w) ws * phi k h)).
      rewrite (lsum_ext _ (fun _ => lprod m hs)).
      * rewrite lsum_const, arrangements_count. f_equal. apply lprod_ext. intros h _. unfold m. rewrite (shares_pad ws (length Ps)) by lia.
        apply rsum_ext. intros k Hk. unfold share. f_equal. unfold phi. apply one_fresh; auto.
      * intros p Hp. apply arrangements_perm in Hp. rewrite (lprod_perm m _ _ Hp). assert (Ln: n = length p) by exact (Permutation_length Hp). rewrite Ln. apply (clusters_line EL (length Ps) ws _ phi p); auto.
Qed.
Print Assumptions C79_unordered.

Section Disc.
Context (nc : pyval) (g : cconfig) (C H W : nat) (os : list (coracle nat)) (Ps : list (convpc nat)) (sts : list cstate) (B : nat).
Hypothesis (HM : conv_mixture_of nc g C H W os Ps) (HF : conv_fits g H W) (HD : forall P, In P Ps -> discrete_leaf B (cp_leaf P) /\ lf_ctx (cp_leaf P) = true) (Hoff : all_off Ps sts).
Lemma cmix_EL_ok : leaf_expectation (EL_discrete B (cmix_draw Ps)).
Proof using HM HF HD.
  clear Hoff. destruct (conv_mixture_components _ _ _ _ _ _ _ HM) as (_ & Hpos & HA).
  assert (SUM: forall P, In P Ps -> forall key, rsum B (leaf_draw (cp_leaf P) key) = 1).
  { intros P Hin. destruct (HA P Hin) as (o & A). pose proof (usof_ok _ _ _ _ _ _ A HF) as HP. destruct (HD P Hin) as [D1 _].
    intros key. apply dleaf_draw_sum; [exact D1|apply (co_lf _ (co_leafs _ _ HP))|apply (clf_pos P (usof P) HP)]. }
  assert (B0: (0 < B)%nat).
  { destruct Ps as [|P l] eqn:EE; [cbn in Hpos; lia|]. pose proof (SUM P (or_introl eq_refl) []) as X. destruct B; [rewrite rsum_0 in X; lra|lia]. }
  assert (U: rsum B (fun v => if (v =? 0)%nat then 1 else 0) = 1).
  { rewrite (rsum_single B 0%nat); auto. intros v _ Hv. destruct (Nat.eqb_spec v 0); [congruence|auto]. }
  apply EL_discrete_ok. intros [|c k]; [exact U|]. unfold cmix_draw. destruct (nth_error Ps c) as [P|] eqn:En; [|exact U].
  apply SUM. eapply nth_error_In; eauto.
Qed.
Lemma one_lik c (px : nat -> nat -> nat -> nat) : (c < length Ps)%nat -> (forall ch y x, (ch < C)%nat -> (y < H)%nat -> (x < W)%nat -> (px ch y x < B)%nat) ->
  one_of C H W Ps sts INR (EL_discrete B (cmix_draw Ps)) 1 c (fun ch f v => if isval (px ch (f / W) (f mod W))%nat v then 1 else 0) = clik_at Ps c (one_image C H W px) 0.
Proof.
  intros Hc Hp. destruct (conv_mixture_components _ _ _ _ _ _ _ HM) as (_ & _ & HA). unfold one_of, clik_at.
  destruct (nth_error Ps c) as [P|] eqn:En; [|apply nth_error_None in En; lia]. pose proof (nth_error_In _ _ En) as Hin. destruct (HA P Hin) as (o & A). destruct (HD P Hin) as [D1 D2].
  transitivity (Pr B (cp_leaf P) (snd (conv_sample P INR (state_of P sts c) (free 1 1))) (images_are 1 C H W (fun _ => px))).
  - unfold Pr. transitivity (expect (EL_discrete B (leaf_draw (cp_leaf P))) (snd (conv_sample P INR (state_of P sts c) (sums_at 1 1))) (fun t => image_value C H W (fun ch f v => if isval (px ch (f / W) (f mod W))%nat v then 1 else 0) (trow t 0))).
    + apply expect_EL; [apply (ELc_ok _ c cmix_EL_ok)|]. intros key f. unfold EL_discrete, cmix_draw. rewrite En. reflexivity.
    + apply expect_ext.
      * pose proof (usof_ok _ _ _ _ _ _ A HF) as HP. apply dEL_ok; [exact D1|apply (co_lf _ (co_leafs _ _ HP))|apply (clf_pos P (usof P) HP)].
      * intros t. rewrite images_are_rprod. unfold rprod3. rewrite rprod_S, rprod_0, Rmult_1_l. reflexivity.
  - rewrite (C51_law g C H W o P B) by (auto; apply (comp_off Ps sts Hoff P c En)). rewrite rprod_S, rprod_0, Rmult_1_l.
    assert (I1: images P 1 (one_image C H W px)).
    { destruct (build_conv_inv _ _ _ _ _ _ A) as (c0 & rest & _ & E1 & E2 & E3 & _). split; [rewrite E1, E2, E3; reflexivity|]. rewrite E1, E2, E3. intros n ch y x v _ Hch Hy Hx Hv. cbn [one_image get] in Hv. injection Hv as <-. rewrite (dl_supp B _ D1). apply Nat.ltb_lt. auto. }
    apply (C40_rows nat g C H W o P _ _ 1 _ 1 _ 0 0); auto.
Qed.
End Disc.
(** sample(num_samples=1) follows the mixture of the likelihoods. *)
Theorem C79_one : forall nc g C H W os (Ps : list (convpc nat)) B ws predict sts cl ms px,
  conv_mixture_of nc g C H W os Ps -> conv_fits g H W -> (forall P, In P Ps -> discrete_leaf B (cp_leaf P) /\ lf_ctx (cp_leaf P) = true) -> all_off Ps sts ->
  (length ws <= length Ps)%nat -> weights_ok ws -> (forall ch y x, (ch < C)%nat -> (y < H)%nat -> (x < W)%nat -> (px ch y x < B)%nat) ->
  PrCMix B Ps (snd (cm_sample INR Ps ws predict sts (mkMArgs (Some 1%nat) None cl None false false 1 ms))) (images_are 1 C H W (fun _ => px)) =
  rsum (length Ps) (fun k => share ws k * clik_at Ps k (one_image C H W px) 0).
Proof.
  intros nc g C H W os Ps B ws predict sts cl ms px HM HF HD Hoff Hl HW Hp. pose proof (cmix_EL_ok nc g C H W os Ps B HM HF HD) as HEL.
  set (h := fun ch f v => if isval (px ch (f / W) (f mod W))%nat v then 1 else 0).
  unfold PrCMix. rewrite (expect_ext _ HEL _ _ (images_test 1 C H W h)).
  2:{ intros t. rewrite images_are_rprod. unfold rprod3. reflexivity. }
  rewrite (C79_law nat nc g C H W os Ps ws predict sts INR 1 cl 1 ms _ h HM HF (fun P H => proj2 (HD P H)) Hoff Hl HW ltac:(lia) R1_neq_R0 HEL).
  rewrite pow_1. apply rsum_ext. intros k Hk. f_equal. destruct (nth_error Ps k) as [P|] eqn:En; [|apply nth_error_None in En; lia].
  assert (Hoff': all_off Ps (map (fresh_state (V := nat)) Ps)).
  { split; [apply map_length|]. intros st Hs. apply in_map_iff in Hs as (Q & <- & _). reflexivity. }
  rewrite <- (one_lik nc g C H W os Ps (map (fresh_state (V := nat)) Ps) B HM HF HD Hoff' k px Hk Hp). unfold one_of. rewrite En.
  assert (ES: state_of P (map (fresh_state (V := nat)) Ps) k = fresh_state P).
  { unfold state_of. rewrite map_nth. f_equal. apply nth_error_nth. exact En. }
  rewrite ES. apply expect_ext; [apply (ELc_ok _ k HEL)|]. intros t. unfold images_test. rewrite rprod_S, rprod_0, Rmult_1_l. reflexivity.
Qed.
Print Assumptions C79_one.
(** sample(num_samples_per_cluster=m): images j*m .. j*m+m-1 are independent draws from component j. *)
Theorem C79_per_cluster : forall nc g C H W os (Ps : list (convpc nat)) B ws predict sts m cl ms xs,
  conv_mixture_of nc g C H W os Ps -> conv_fits g H W -> (forall P, In P Ps -> discrete_leaf B (cp_leaf P) /\ lf_ctx (cp_leaf P) = true) -> all_off Ps sts ->
  (0 < m)%nat -> (forall n ch y x, (n < m * length Ps)%nat -> (ch < C)%nat -> (y < H)%nat -> (x < W)%nat -> (xs n ch y x < B)%nat) ->
  PrCMix B Ps (snd (cm_sample INR Ps ws predict sts (mkMArgs None (Some m) cl None false false 1 ms))) (images_are (m * length Ps) C H W xs) =
  rprod (m * length Ps) (fun n => clik_at Ps (n / m) (one_image C H W (xs n)) 0).
Proof.
  intros nc g C H W os Ps B ws predict sts m cl ms xs HM HF HD Hoff Hm Hx. pose proof (cmix_EL_ok nc g C H W os Ps B HM HF HD) as HEL.
  destruct (conv_mixture_components _ _ _ _ _ _ _ HM) as (_ & Hpos & HA).
  unfold cm_sample. cbn [m_n m_per m_ev m_class m_mpe m_mpel m_tsum m_ms is_none orb negb snd mix_clusters mbind].
  set (cs := flat_map (fun c => repeat c m) (seq 0 (length Ps))).
  destruct (blocks m Hm (length Ps) 0) as [B1 B2]. fold cs in B1, B2.
  assert (Lc: length cs = (m * length Ps)%nat).
  { unfold cs. clear. generalize 0%nat. induction (length Ps) as [|k IH]; intros i; cbn [seq flat_map length]; [lia|]. rewrite app_length, repeat_length, IH. lia. }
  assert (Hcs0: cs <> []). { intros Z. rewrite Z in Lc. cbn in Lc. assert (0 < m * length Ps)%nat by nia. lia. }
  assert (Hin: forall c, In c cs -> (c < length Ps)%nat).
  { intros c Hc. unfold cs in Hc. apply in_flat_map in Hc as (i & Hi & Hc). apply repeat_spec in Hc. subst i. apply in_seq in Hi. lia. }
  unfold PrCMix. rewrite <- Lc.
  rewrite (expect_ext _ HEL _ _ (fun t => rprod (length cs) (fun n => image_value C H W (fun ch f v => if isval (xs n ch (f / W) (f mod W))%nat v then 1 else 0) (trow t n)))).
  2:{ intros t. rewrite images_are_rprod. unfold rprod3. reflexivity. }
  etransitivity; [apply (cm_free_law nc g C H W os Ps sts INR _ HM HF (fun P H => proj2 (HD P H)) Hoff HEL cs 1 Hcs0 Hin R1_neq_R0 (fun n ch f v => if isval (xs n ch (f / W) (f mod W))%nat v then 1 else 0))|].
  apply rprod_ext. intros n Hn. rewrite (source_sorted cs n Hcs0 B1 Hn). rewrite Lc in Hn. rewrite (B2 n Hn), Nat.add_0_l.
  apply (one_lik nc g C H W os Ps sts B HM HF HD Hoff).
  - apply Nat.div_lt_upper_bound; lia.
  - intros ch y x. apply Hx. lia.
Qed.
Print Assumptions C79_per_cluster.
(** Every call without evidence returns images; all pixels of an image come from the leaves of one component (or are
    their modes), at the position of the pixel. *)
Theorem C79_images : forall V nc g C H W os (Ps : list (convpc V)) ws predict sts val a supp r,
  conv_mixture_of nc g C H W os Ps -> conv_fits g H W -> (forall P, In P Ps -> lf_ctx (cp_leaf P) = true) -> all_off Ps sts -> (0 < length ws <= length Ps)%nat ->
  m_ev a = None -> m_n a = None \/ m_per a = None -> m_tsum a <> 0 -> (m_mpe a || m_mpel a = true -> forall P, In P Ps -> lf_mode (cp_leaf P) <> None) ->
  let N := if m_mpe a then 1%nat else match m_per a, m_n a with Some m, _ => (m * length Ps)%nat | None, Some n => n | None, None => 1%nat end in
  (0 < N)%nat -> outcome supp (snd (cm_sample val Ps ws predict sts a)) r ->
  fst (cm_sample val Ps ws predict sts a) = sts /\
  exists t, r = Ok t /\ shape t = [N; C; H; W] /\
  forall n, (n < N)%nat -> exists k P, nth_error Ps k = Some P /\ forall c h w, (c < C)%nat -> (h < H)%nat -> (w < W)%nat ->
    exists l v, (l < hd 0 (cc_channels g))%nat /\ get t [n; c; h; w] = Fin (val v) /\
      if m_mpe a || m_mpel a then exists md, lf_mode (cp_leaf P) = Some md /\ v = md [c; h * W + w; l; 0]%nat else supp (k :: [c; h * W + w; l; 0]%nat) v.
Proof.
  intros V nc g C H W os Ps ws predict sts val a supp r HM HF Hctx Hoff Hw He Hnp HT Hmd N HN Ho. destruct (conv_mixture_components _ _ _ _ _ _ _ HM) as (_ & Hpos & HA).
  unfold cm_sample in *. assert (EN: negb (is_none (m_n a) || is_none (m_per a)) = false) by (destruct Hnp as [->| ->]; [reflexivity|destruct (m_n a); reflexivity]).
  rewrite EN, He in *. cbn [fst snd] in *. split; auto.
  apply outcome_bind in Ho as [(e & Ho & ->)|(cs & Hcs & Ho)].
  { apply clusters_fail in Ho as (Z0 & Z1 & _). solve [discriminate|lia]. }
  destruct (clusters_outcome _ _ _ _ _ _ _ Hcs) as (cs' & X & H1 & H2). injection X as <-.
  assert (EL: length cs = N).
  { rewrite H2. unfold N. destruct (m_mpe a); auto. destruct (m_per a), (m_n a); auto. }
  assert (Hcs0: cs <> []) by (intros Z; rewrite Z in EL; cbn in EL; lia). specialize (H1 Hw).
  set (Q := fun k (t : tensor num) => exists P, nth_error Ps k = Some P /\ forall c h w, (c < C)%nat -> (h < H)%nat -> (w < W)%nat ->
    exists l v, (l < hd 0 (cc_channels g))%nat /\ get t [c; h; w] = Fin (val v) /\
      if m_mpe a || m_mpel a then exists md, lf_mode (cp_leaf P) = Some md /\ v = md [c; h * W + w; l; 0]%nat else supp (k :: [c; h * W + w; l; 0]%nat) v).
  destruct (free_rows_ok (fun c k => P <~ lift (conv_component Ps c) ;; tag c (snd (conv_sample P val (state_of P sts c) (mkCA (Some k) None (m_mpe a) (m_mpel a) false (m_tsum a))))) cs [C; H; W] supp Q Hcs0) with (r := r) as (t & -> & St & Qt).
  - intros c t u _ _ E (P & En & HP). exists P. split; auto. intros ch h w Hc Hh Hw'. destruct (HP ch h w Hc Hh Hw') as (l & v & P1 & P2 & P3). exists l, v. rewrite E. auto.
  - intros c k r0 Hin Hk Hr. specialize (H1 c Hin). unfold conv_component in Hr. destruct (nth_error Ps c) as [P|] eqn:En; [|apply nth_error_None in En; lia]. cbn [lift mbind] in Hr.
    pose proof (nth_error_In _ _ En) as Pin. destruct (HA P Pin) as (o & A). apply outcome_tag in Hr.
    destruct (C51_images V g C H W o P val (state_of P sts c) (mkCA (Some k) None (m_mpe a) (m_mpel a) false (m_tsum a)) k _ _ A HF (comp_off Ps sts Hoff P c En) (Hctx P Pin) eq_refl eq_refl eq_refl HT (fun Hm => Hmd Hm P Pin) Hr) as (t & -> & St & G).
    exists t. split; auto. split; auto. intros i Hi. exists P. split; auto. intros ch h w Hc Hh Hw'. destruct (G i ch h w Hi Hc Hh Hw') as (l & v & P1 & P2 & P3). exists l, v. auto.
  - exact Ho.
  - exists t. rewrite EL in *. split; auto. split; auto. intros n Hn. destruct (Qt n Hn) as (P & En & HP). exists (source cs n), P. split; auto.
Qed.
Print Assumptions C79_images.
(** Refuted: with evidence every call raises, and the component of the first row is left with enabled caches. *)
Theorem C79_evidence_refuted : forall V nc g C H W os (Ps : list (convpc V)) ws predict sts val a e,
  conv_mixture_of nc g C H W os Ps -> all_off Ps sts -> (0 < length ws <= length Ps)%nat -> m_ev a = Some e -> m_n a = None \/ m_per a = None ->
  predict e (m_ms a) <> [] -> (forall c, In c (predict e (m_ms a)) -> (c < length Ps)%nat) ->
  (forall supp r, outcome supp (snd (cm_sample val Ps ws predict sts a)) r -> r = Err AttributeErr) /\
  forall c st, nth_error (fst (cm_sample val Ps ws predict sts a)) c = Some st -> st_on st = (c =? hd 0%nat (predict e (m_ms a)))%nat.
Proof.
  intros V nc g C H W os Ps ws predict sts val a e HM Hoff Hw He Hnp Hp Hc. unfold cm_sample.
  assert (EN: negb (is_none (m_n a) || is_none (m_per a)) = false) by (destruct Hnp as [->| ->]; [reflexivity|destruct (m_n a); reflexivity]). rewrite EN, He.
  unfold cm_sample_given. destruct (predict e (m_ms a)) as [|c0 cs] eqn:EP; [contradiction|]. clear Hp.
  assert (ES: exists idxs rest, separate 0 (c0 :: cs) [] = (c0, idxs) :: rest /\ idxs <> []).
  { cbn [separate add_idx]. assert (G: forall l i d c0 idxs, idxs <> [] -> exists idxs' d', separate i l ((c0, idxs) :: d) = (c0, idxs') :: d' /\ idxs' <> []).
    { induction l as [|c l IH]; intros i d c1 idxs Hi; cbn [separate]; [eauto|]. cbn [add_idx]. destruct (c =? c1)%nat; apply IH; auto. destruct idxs; discriminate. }
    apply G. discriminate. }
  destruct ES as (idxs & rest & -> & Hne).
  destruct (stack_ok (map (trow e) idxs) (tl (shape e))) as (t & Et & _).
  { destruct idxs; [contradiction|discriminate]. }
  { intros u Hu. apply in_map_iff in Hu as (j & <- & _). reflexivity. }
  rewrite Et. cbn [bind]. specialize (Hc c0 (or_introl eq_refl)). unfold conv_component. destruct (nth_error Ps c0) as [P|] eqn:En; [|apply nth_error_None in En; lia]. cbn [bind].
  cbn [conv_sample ca_num ca_ev fst snd tag hd]. split.
  - intros supp r Ho. apply outcome_bind in Ho as [(er & Ho & ->)|(cl & _ & Ho)]; [|inversion Ho; reflexivity].
    apply clusters_fail in Ho as (Z0 & _). lia.
  - intros c st Hst. destruct Hoff as [L O]. assert (Lt: (c < length sts)%nat).
    { rewrite <- (put_length c0 (mkSt true (map (fun _ => None) (cp_layers P))) sts). apply nth_error_Some. congruence. }
    apply nth_error_nth with (d := fresh_state P) in Hst. destruct (Nat.eqb_spec c c0) as [->|Hn].
    + rewrite put_same in Hst by auto. subst st. reflexivity.
    + rewrite put_other in Hst by auto. subst st. apply O. apply nth_In. auto.
Qed.
Print Assumptions C79_evidence_refuted.

(** ** Concrete cases: two circuits with different leaves and logits *)
Definition ex_cmix : list (convpc nat) := [ex_conv third grow; ex_conv two_fifths nudged].
Lemma ex_cmix_of : conv_mixture_of (VInt 2) cex_bottom 3 4 8 [ex_conv_o third grow; ex_conv_o two_fifths nudged] ex_cmix.
Proof.
  split.
  - intros o [<-|[<-|[]]]; apply ex_conv_oracle; [reflexivity|apply nudged_fin].
  - repeat constructor.
  - cbn. unfold nval. cbn. lia.
  - unfold conv_mixture_build. pose proof (check_nat 2 ltac:(lia)) as CN. change (Z.of_nat 2) with 2%Z in CN. rewrite CN. cbn [bind]. change (nval (VInt 2)) with 2%nat. cbn [firstn mapM].
    rewrite (cac_build _ _ _ _ _ _ (ex_conv_accepted third grow (fun _ => eq_refl))), (cac_build _ _ _ _ _ _ (ex_conv_accepted two_fifths nudged nudged_fin)). reflexivity.
Qed.
Lemma ex_cmix_leaves P : In P ex_cmix -> discrete_leaf 2 (cp_leaf P) /\ lf_ctx (cp_leaf P) = true.
Proof.
  intros [<-|[<-|[]]]; (split; [|reflexivity]).
  - apply (coin_discrete third 32 3 2 1). intros; unfold third; lra.
  - apply (coin_discrete two_fifths 32 3 2 1). intros; unfold two_fifths; lra.
Qed.
Definition ex_cm_states : list cstate := map (fresh_state (V := nat)) ex_cmix.
Lemma ex_cm_off : all_off ex_cmix ex_cm_states.
Proof. split; [reflexivity|]. intros st [<-|[<-|[]]]; reflexivity. Qed.
Lemma one_three_ok : weights_ok [1; 3].
Proof. exact uneven_ok. Qed.
(** Five images with missing pixels; images 1 and 4 are in cluster 0. *)
Example C79_rows_ex : exists y, snd (cm_forward ex_cmix (fun _ _ => [1; 0; 1; 1; 0]%nat) ex_cm_states ex_imgs None) = Ok y /\ shape y = [5]%nat /\
  get y [3]%nat = Fin (cloglik (ex_conv two_fifths nudged) (fresh_state (ex_conv two_fifths nudged)) ex_imgs 3) /\
  get y [4]%nat = Fin (cloglik (ex_conv third grow) (fresh_state (ex_conv third grow)) ex_imgs 4).
Proof.
  destruct (C79_rows nat _ _ _ _ _ _ _ (fun _ _ => [1; 0; 1; 1; 0]%nat) ex_cm_states ex_imgs None 5 ex_cmix_of dex_fits) as (y & E & S & _ & G).
  - intros P [<-|[<-|[]]]; apply ex_imgs_ok.
  - lia.
  - reflexivity.
  - intros c Hc. cbn [In] in Hc. cbn [ex_cmix length]. intuition lia.
  - exists y. split; auto. split; auto. destruct (G 3%nat ltac:(lia)) as (P & E3 & G3). destruct (G 4%nat ltac:(lia)) as (P' & E4 & G4).
    injection E3 as <-. injection E4 as <-. auto.
Qed.
Example C79_one_ex : let px := fun c h w : nat => ((c + h + w) mod 2)%nat in
  PrCMix 2 ex_cmix (snd (cm_sample INR ex_cmix [1; 3] (fun _ _ => []) ex_cm_states (mkMArgs (Some 1%nat) None CNone None false false 1 None))) (images_are 1 3 4 8 (fun _ => px)) =
  1 / 4 * clik (ex_conv third grow) (fresh_state (ex_conv third grow)) (one_image 3 4 8 px) 0 +
  3 / 4 * clik (ex_conv two_fifths nudged) (fresh_state (ex_conv two_fifths nudged)) (one_image 3 4 8 px) 0.
Proof.
  intros px. rewrite (C79_one (VInt 2) cex_bottom 3 4 8 _ ex_cmix 2 [1; 3] (fun _ _ => []) ex_cm_states CNone None px ex_cmix_of dex_fits ex_cmix_leaves ex_cm_off (le_n 2) one_three_ok).
  - change (length ex_cmix) with 2%nat. rewrite !rsum_S, rsum_0. unfold share, clik_at. cbn [nth lsum nth_error ex_cmix]. lra.
  - intros. apply Nat.mod_upper_bound. lia.
Qed.
(** Two different tests in both orders: the first pixels, and all pixels of channel 2, are one. *)
Example C79_unordered_ex : exists m1 m2, let t1 := fun (c f : nat) v => if (f =? 0)%nat then (if isval 1 v then 1 else 0) else 1 in
  let t2 := fun (c f : nat) v => if (c =? 2)%nat then (if isval 1 v then 1 else 0) else 1 in
  let P := fun a b => expect (EL_discrete 2 (cmix_draw ex_cmix)) (snd (cm_sample INR ex_cmix [1; 3] (fun _ _ => []) ex_cm_states (mkMArgs (Some 2%nat) None CNone None false false 1 None))) (image_tests 3 4 8 [a; b]) in
  P t1 t2 + P t2 t1 = 2 * (m1 * m2).
Proof.
  pose proof (cmix_EL_ok _ _ _ _ _ _ _ 2 ex_cmix_of dex_fits ex_cmix_leaves) as HEL. do 2 eexists. intros t1 t2 P.
  pose proof (C79_unordered nat (VInt 2) cex_bottom 3 4 8 _ ex_cmix [1; 3] (fun _ _ => []) ex_cm_states INR CNone 1 None _ [t1; t2] ex_cmix_of dex_fits (fun P H => proj2 (ex_cmix_leaves P H)) ex_cm_off (le_n 2) one_three_ok ltac:(cbn; lia) R1_neq_R0 HEL) as H.
  assert (H': arrangements [t1; t2] = [[t1; t2]; [t2; t1]]) by reflexivity. rewrite H' in H. cbn [lsum lprod length] in H. rewrite Rplus_0_r in H. unfold P. etransitivity; [apply H|].
  change (INR (fact 2)) with 2. rewrite Rmult_1_r. reflexivity.
Qed.
(** Three images; four images, two of each component *)
Example C79_law_ex : exists p0 p1,
  PrCMix 2 ex_cmix (snd (cm_sample INR ex_cmix [1; 3] (fun _ _ => []) ex_cm_states (mkMArgs (Some 3%nat) None CNone None false false 2 None))) (images_are 3 3 4 8 (fun _ _ h _ => h mod 2)%nat) =
  (1 / 4 * p0 + 3 / 4 * p1) ^ 3.
Proof.
  pose proof (cmix_EL_ok _ _ _ _ _ _ _ 2 ex_cmix_of dex_fits ex_cmix_leaves) as HEL. do 2 eexists.
  unfold PrCMix. rewrite (expect_ext _ HEL _ _ (images_test 3 3 4 8 (fun _ f v => if isval ((f / 8) mod 2)%nat v then 1 else 0))) by (intros t; rewrite images_are_rprod; reflexivity).
  rewrite (C79_law nat (VInt 2) cex_bottom 3 4 8 _ ex_cmix [1; 3] (fun _ _ => []) ex_cm_states INR 3 CNone 2 None _ _ ex_cmix_of dex_fits (fun P H => proj2 (ex_cmix_leaves P H)) ex_cm_off (le_n 2) one_three_ok ltac:(lia) ltac:(lra) HEL).
  change (length ex_cmix) with 2%nat. rewrite !rsum_S, rsum_0. unfold share. cbn [nth lsum nth_error ex_cmix]. replace (1 + (3 + 0)) with 4 by lra. rewrite Rplus_0_l. reflexivity.
Qed.
Example C79_per_cluster_ex : let x := fun n c h w : nat => ((n + c + h + w) mod 2)%nat in
  PrCMix 2 ex_cmix (snd (cm_sample INR ex_cmix [1; 3] (fun _ _ => []) ex_cm_states (mkMArgs None (Some 2%nat) CNone None false false 1 None))) (images_are 4 3 4 8 x) =
  clik_at ex_cmix 0 (one_image 3 4 8 (x 0%nat)) 0 * clik_at ex_cmix 0 (one_image 3 4 8 (x 1%nat)) 0 * clik_at ex_cmix 1 (one_image 3 4 8 (x 2%nat)) 0 * clik_at ex_cmix 1 (one_image 3 4 8 (x 3%nat)) 0.
Proof.
  intros x. pose proof (C79_per_cluster (VInt 2) cex_bottom 3 4 8 _ ex_cmix 2 [1; 3] (fun _ _ => []) ex_cm_states 2 CNone None x ex_cmix_of dex_fits ex_cmix_leaves ex_cm_off ltac:(lia)) as H.
  change (2 * length ex_cmix)%nat with 4%nat in H. rewrite H.
  - rewrite !rprod_S, rprod_0. change (0 / 2)%nat with 0%nat. change (1 / 2)%nat with 0%nat. change (2 / 2)%nat with 1%nat. change (3 / 2)%nat with 1%nat. ring.
  - intros. apply Nat.mod_upper_bound. lia.
Qed.
(** Sampling and completing: seven images at temperature 1/2; the most probable image. *)
Example C79_images_ex : forall supp r r',
  outcome supp (snd (cm_sample INR ex_cmix [1; 3] (fun _ _ => []) ex_cm_states (mkMArgs (Some 7%nat) None CNone None false false (1 / 2) None))) r ->
  outcome supp (snd (cm_sample INR ex_cmix [1; 3] (fun _ _ => []) ex_cm_states (mkMArgs None None CNone None true false 1 None))) r' ->
  exists t t', r = Ok t /\ shape t = [7; 3; 4; 8]%nat /\ r' = Ok t' /\ shape t' = [1; 3; 4; 8]%nat.
Proof.
  intros supp r r' Hr Hr'.
  destruct (C79_images nat _ _ _ _ _ _ _ [1; 3] (fun _ _ => []) ex_cm_states INR (mkMArgs (Some 7%nat) None CNone None false false (1 / 2) None) supp r ex_cmix_of dex_fits (fun P H => proj2 (ex_cmix_leaves P H)) ex_cm_off) as (_ & t & -> & St & _);
    [cbn; lia|reflexivity|cbn; auto|cbn; lra|discriminate|cbn; lia|exact Hr|].
  destruct (C79_images nat _ _ _ _ _ _ _ [1; 3] (fun _ _ => []) ex_cm_states INR (mkMArgs None None CNone None true false 1 None) supp r' ex_cmix_of dex_fits (fun P H => proj2 (ex_cmix_leaves P H)) ex_cm_off) as (_ & t' & -> & St' & _);
    [cbn; lia|reflexivity|cbn; auto|cbn; lra|intros _ P [<-|[<-|[]]]; discriminate|cbn; lia|exact Hr'|].
  exists t, t'. auto.
Qed.
(** The first image is in cluster 1: its caches stay enabled. *)
Example C79_evidence_ex : let r := cm_sample INR ex_cmix [1; 3] (fun _ _ => [1; 0; 1; 1; 0]%nat) ex_cm_states (mkMArgs None None CNone (Some ex_imgs) false false 1 None) in
  (forall supp y, outcome supp (snd r) y -> y = Err AttributeErr) /\ map st_on (fst r) = [false; true].
Proof.
  intros r. destruct (C79_evidence_refuted nat _ _ _ _ _ _ _ [1; 3] (fun _ _ => [1; 0; 1; 1; 0]%nat) ex_cm_states INR (mkMArgs None None CNone (Some ex_imgs) false false 1 None) ex_imgs ex_cmix_of ex_cm_off) as [A B].
  - cbn. lia.
  - reflexivity.
  - auto.
  - discriminate.
  - intros c Hc. cbn [In] in Hc. cbn [ex_cmix length]. intuition lia.
  - split; [exact A|reflexivity].
Qed.
