(** C80: the law of the images that mixtures generate. *)
From Coq Require Import List Arith Lia Bool ZArith Reals Lra Permutation.
Import ListNotations.
From Verif Require Import Base RSum Num Tensor Prob Layers Circuit Net RefFwd RefSample RefLaw Leaf Perm RefLeaf RefLeafS TypeChecks Einet RefNet RefEinet RefEinetS RefMpe
  Build RefBuild Spec RefSpec RefSpecS RefPack Diff RefDiff PropDiff Content Mean NoiseLaw RefNoise PropNoise Mixture RefMixture RefMixLaw PropMix PropMixLaw PropMixOrder
  ConvPc RefConv RefConvNet RefConvS PropConv PropPerturb PropConvG PropConvD ConvMix RefConvMix PropConvMix Generate RefGenerate PropGenerate Ex.
Local Open Scope R_scope.
Local Arguments Nat.div : simpl never. Local Arguments Nat.modulo : simpl never. Local Arguments Nat.sub : simpl never.
Local Arguments Nat.mul : simpl never. Local Arguments Nat.add : simpl never.

(** * Reordered draws *)
(** Draws whose order depends on the chosen components only are, up to their order, independent. *)
Lemma unordered_law {V T H} (EL : list nat -> (V -> R) -> R) nc ws (phi : nat -> H -> R) (d : H) (D : list nat -> M V T) (G : list H -> T -> R) hs :
  leaf_expectation EL -> weights_ok ws -> (length ws <= nc)%nat -> (0 < length hs)%nat ->
  (forall cs p, length cs = length hs -> (forall c, In c cs -> (c < nc)%nat) -> length p = length hs ->
     expect EL (D cs) (G p) = rprod (length cs) (fun i => phi (source cs i) (nth i p d))) ->
  lsum (fun p => expect EL (cs <~ mix_clusters nc ws (length hs) None false ;; D cs) (G p)) (arrangements hs) =
  INR (fact (length hs)) * lprod (fun h => rsum nc (fun k => share ws k * phi k h)) hs.
Proof.
  intros HEL HW Hl Hn HD. set (n := length hs) in *.
  transitivity (lsum (fun p => expect EL (mix_clusters nc ws n None false) (fun cs => line phi (map (source cs) (seq 0 n)) p)) (arrangements hs)).
  - apply lsum_ext. intros p Hp. apply arrangements_perm, Permutation_length in Hp. fold n in Hp. rewrite expect_bind by auto.
    apply expect_ext_outcome; auto. intros cs Hcs. destruct (clusters_outcome _ _ _ _ _ _ _ Hcs) as (cs' & X & H1 & H2). assert (cs' = cs) by congruence. subst cs'. cbn in H2.
    rewrite HD; auto; [|apply H1; pose proof (weights_ne ws HW); lia]. rewrite <- (line_rprod phi _ p (source cs 0) d) by (rewrite map_length, seq_length; auto).
    rewrite H2, Hp. apply rprod_ext. intros i Hi. rewrite (map_nth (source cs)), seq_nth by lia. reflexivity.
  - rewrite clusters_plus by auto.
    transitivity (expect EL (mix_clusters nc ws n None false) (fun cs => lsum (fun p => line phi cs p) (arrangements hs))).
    + apply expect_ext_outcome; auto. intros cs Hcs. destruct (clusters_outcome _ _ _ _ _ _ _ Hcs) as (cs' & X & H1 & H2). assert (cs' = cs) by congruence. subst cs'. cbn in H2.
      assert (Hcs0: cs <> []) by (intros Z; rewrite Z in H2; cbn in H2; lia).
      assert (P: Permutation (map (source cs) (seq 0 n)) cs).
      { rewrite <- H2. unfold source. destruct (permutation_of_any cs Hcs0) as (perm & Ep & Pp). rewrite Ep.
        assert (LC: length (comps (separate 0 cs [])) = length cs) by (apply Permutation_length, comps_perm).
        apply Permutation_trans with (comps (separate 0 cs [])); [|apply comps_perm].
        rewrite <- (map_map (fun i => nth i perm 0%nat) (fun j => nth j (comps (separate 0 cs [])) 0%nat)).
        assert (Q: map (fun i => nth i perm 0%nat) (seq 0 (length cs)) = perm).
        { rewrite <- (seq_length (length cs) 0), <- (Permutation_length Pp). apply map_nth_seq. }
        rewrite Q. rewrite <- (map_nth_seq (comps (separate 0 cs []))) at 1. rewrite LC. apply Permutation_map. exact Pp. }
      pose proof (permanent_perm phi _ _ P hs) as Q. unfold permanent in Q. rewrite (Permutation_length P), H2 in Q. exact Q.
    + rewrite <- clusters_plus by auto.
      set (m := fun h => rsum (length ws) (fun k => nth k ws 0 / lsum (fun w => w) ws * phi k h)).
      rewrite (lsum_ext _ (fun _ => lprod m hs)).
      * rewrite lsum_const, arrangements_count. f_equal. apply lprod_ext. intros h _. unfold m. apply (shares_pad ws nc). lia.
      * intros p Hp. apply arrangements_perm in Hp. rewrite (lprod_perm m _ _ Hp). assert (Ln: n = length p) by exact (Permutation_length Hp). rewrite Ln. apply (clusters_line EL nc ws _ phi p); auto.
Qed.

(** * Tests of images before they are reshaped *)
Section Flat.
Context {V : Type}.
Variables (val : V -> R) (s : ishape).
Definition pixel_test := nat -> nat -> nat -> num -> R.
Definition flat_test (q : pixel_test) (t : tensor num) : R :=
  rprod (i_C s) (fun c => rprod (i_H s * i_W s) (fun f => q c (f / i_W s)%nat (f mod i_W s)%nat
    (ndiv (if (length (shape t) =? 2)%nat then get t [c; f] else get t [c; f / i_W s; f mod i_W s]%nat) (Fin 255)))).
Lemma flat_test_ext q t u : shape u = shape t -> (forall idx, get u idx = get t idx) -> flat_test q u = flat_test q t.
Proof. intros S G. unfold flat_test. apply rprod_ext. intros c _. apply rprod_ext. intros f _. rewrite S, !G. reflexivity. Qed.
Definition raw_shape (n : nat) (t : list nat) : Prop := t = [n; i_C s; (i_H s * i_W s)%nat] \/ t = [n; i_C s; i_H s; i_W s].
Lemma gen_flat EL (m : M V (tensor num)) n (q : nat -> pixel_test) : leaf_expectation EL -> (0 < i_C s)%nat -> (0 < i_H s * i_W s)%nat -> (0 < n)%nat ->
  (forall t, outcome (fun _ _ => True) m (Ok t) -> raw_shape n (shape t)) ->
  expect EL (t <~ m ;; lift (t <- view_infer [] [i_C s; i_H s; i_W s] t ;; Ok (tmap (fun v => ndiv v (Fin 255)) t))) (pixel_tests s n q) =
  expect EL m (fun t => rprod n (fun i => flat_test (q i) (trow t i))).
Proof.
  intros HEL HC HW Hn HS. rewrite expect_bind by auto. apply expect_ext_outcome; auto. intros t Ho. specialize (HS t Ho).
  destruct (view_images t n (i_C s) (i_H s) (i_W s)) as (u & Eu & Su & Gu); auto. rewrite Eu. cbn [bind lift expect].
  rewrite (pixel_flat s n q _ t); auto; [|rewrite Eu; reflexivity]. unfold rprod3, flat_test. apply rprod_ext. intros i Hi. apply rprod_ext. intros c Hc. apply rprod_ext. intros f Hf.
  cbn [trow shape get]. destruct HS as [St|St]; rewrite St; reflexivity.
Qed.
End Flat.

(** * Components *)
(** The images of one component are independent draws with the law of a single one. *)
Lemma einet_rows {V} (val : V -> R) us s x K o (E : einet V) EL n (q : nat -> pixel_test) : accepted (einet_config s x K) o E -> leaf_expectation EL ->
  lf_ctx (leafE E) = true -> lf_mode (leafE E) <> None -> (0 < n)%nat ->
  expect EL (sample E (mkArgs (Some n) CNone None false true 1 None)) (fun t => rprod n (fun i => flat_test s (q i) (numbers val (trow t i)))) =
  rprod n (fun i => expect EL (generate_samples val us s (SpnEinet E) 1 false) (pixel_tests s 1 (fun _ => q i))).
Proof.
  intros HA HEL Hctx Hm Hn. destruct (lf_mode (leafE E)) as [md|] eqn:Em; [|congruence]. destruct (einet_sizes s x K o E HA) as (EC & EF & EK & HC & HHW).
  destruct (C80_law V val us s x K o E EL md HA HEL Hctx Em) as (ps & _ & _ & L).
  transitivity (expect EL (generate_samples val us s (SpnEinet E) n false) (pixel_tests s n q)).
  - unfold generate_samples. rewrite gen_flat; auto.
    + cbn [spn_sample]. rewrite expect_bind by auto. apply expect_ext; auto.
    + intros t Ho. destruct (einet_raw val us s x K o E n false _ _ HA Hctx ltac:(congruence) Hn Ho) as (t' & X & HR). injection X as <-. destruct HR as [[S _]|[S _]]; [left|right]; exact S.
  - rewrite L by auto. apply rprod_ext. intros i Hi. rewrite L by lia. rewrite rprod_S, rprod_0. ring.
Qed.
Lemma conv_gen_rows {V} (val : V -> R) us s g o (P : convpc V) st EL n (q : nat -> pixel_test) : conv_accepted g (i_C s) (i_H s) (i_W s) o P -> conv_fits g (i_H s) (i_W s) -> st_on st = false ->
  (0 < i_C s)%nat -> (0 < i_H s)%nat -> (0 < i_W s)%nat -> leaf_expectation EL -> lf_ctx (cp_leaf P) = true -> lf_mode (cp_leaf P) <> None -> (0 < n)%nat ->
  expect EL (snd (conv_sample P val st (mkCA (Some n) None false true false 1))) (fun t => rprod n (fun i => flat_test s (q i) (trow t i))) =
  rprod n (fun i => expect EL (generate_samples val us s (SpnConv P (fresh_state P)) 1 false) (pixel_tests s 1 (fun _ => q i))).
Proof.
  intros HA HF Hst HC HH HW HEL Hctx Hm Hn. destruct (lf_mode (cp_leaf P)) as [md|] eqn:Em; [|congruence]. assert (HHW: (0 < i_H s * i_W s)%nat) by nia.
  transitivity (expect EL (generate_samples val us s (SpnConv P (fresh_state P)) n false) (pixel_tests s n q)).
  - unfold generate_samples. rewrite gen_flat; auto.
    + cbn [spn_sample]. f_equal. cbn [conv_sample ca_num ca_ev snd]. unfold conv_free, live. rewrite Hst. reflexivity.
    + intros t Ho. destruct (C51_images V g _ _ _ o P val (fresh_state P) (mkCA (Some n) None false true false 1) n _ _ HA HF eq_refl Hctx eq_refl eq_refl eq_refl ltac:(cbn; lra) ltac:(intros _; congruence) Ho) as (t' & X & St & _).
      injection X as <-. right. exact St.
  - destruct (C80_conv_law V val us s g o P (fresh_state P) EL md HA HF eq_refl HC HH HW HEL Hctx Em) as (ps & _ & _ & L).
    rewrite L by auto. apply rprod_ext. intros i Hi. rewrite L by lia. rewrite rprod_S, rprod_0. ring.
Qed.

(** * C80 *)
(** Images of a mixture of Einets: up to their order, they are independent draws from the components by their weights, each with the law that
    C80_law gives for the component alone. *)
Definition list_tests (s : ishape) (qs : list pixel_test) : tensor num -> R := pixel_tests s (length qs) (fun i => nth i qs (fun _ _ _ _ => 1)).
Theorem C80_mix_law : forall V (val : V -> R) us s nc x K os (Es : list (einet V)) ws predict EL (qs : list pixel_test),
  mixture_of nc (einet_config s x K) os Es -> (forall E, In E Es -> lf_ctx (leafE E) = true /\ lf_mode (leafE E) <> None) ->
  (length ws <= length Es)%nat -> weights_ok ws -> leaf_expectation EL -> (0 < length qs)%nat ->
  lsum (fun p => expect EL (generate_samples val us s (SpnMix Es ws predict) (length qs) false) (list_tests s p)) (arrangements qs) =
  INR (fact (length qs)) * lprod (fun q => rsum (length Es) (fun k => share ws k *
    match nth_error Es k with
    | Some E => expect (fun key => EL (k :: key)) (generate_samples val us s (SpnEinet E) 1 false) (list_tests s [q])
    | None => 0
    end)) qs.
Proof.
  intros V val us s nc x K os Es ws predict EL qs HM Hlf Hl HW HEL Hn. destruct (mixture_components _ _ _ _ HM) as (_ & Hpos & HA).
  assert (HC: (0 < i_C s)%nat /\ (0 < i_H s * i_W s)%nat).
  { destruct Es as [|E l]; [cbn in Hpos; lia|]. destruct (HA E (or_introl eq_refl)) as (o & A). destruct (einet_sizes s x K o E A) as (_ & _ & _ & H1 & H2). auto. }
  destruct HC as [HC HHW].
  set (phi := fun k (q : pixel_test) => match nth_error Es k with
    | Some E => expect (fun key => EL (k :: key)) (generate_samples val us s (SpnEinet E) 1 false) (pixel_tests s 1 (fun _ => q)) | None => 0 end).
  set (a := fun k => mkArgs (V := V) (Some k) CNone None false true 1 None).
  assert (SH: forall cs, cs <> [] -> (forall c, In c cs -> (c < length Es)%nat) -> forall t, outcome (fun _ _ => True) (mix_sample_free Es a cs) (Ok t) -> shape t = [length cs; i_C s; (i_H s * i_W s)%nat]).
  { intros cs Hcs Hc t Ht.
    destruct (free_rows_ok (fun c k => E <~ lift (component Es c) ;; tag c (sample E (a k))) cs [i_C s; (i_H s * i_W s)%nat] (fun _ _ => True) (fun _ _ => True) Hcs ltac:(auto)) with (r := Ok t) as (t' & X & S & _).
    - intros c k r Hin Hk Ho. specialize (Hc c Hin). destruct (component_ok Es c Hc) as (E & Ec & En & Ein). rewrite Ec in Ho. cbn [lift mbind] in Ho. destruct (HA E Ein) as (o & A).
      destruct (einet_sizes s x K o E A) as (EC & EF & _). pose proof (accepted_ok _ _ _ A) as HE. destruct (Hlf E Ein) as [H1 H2].
      destruct (sample_free_out E HE (a k)) as [O _]; auto; try apply args_ok; try exact I; try (cbn; lra).
      apply outcome_tag in Ho. destruct (O _ _ Ho) as (t0 & -> & St & _). cbn in St. exists t0. rewrite St, EC, EF. auto.
    - exact Ht.
    - injection X as <-. exact S. }
  transitivity (lsum (fun p => expect EL (cs <~ mix_clusters (length Es) ws (length qs) None false ;; mix_sample_free Es a cs)
     (fun t => rprod (length qs) (fun i => flat_test s (nth i p (fun _ _ _ _ => 1)) (numbers val (trow t i))))) (arrangements qs)).
  - apply lsum_ext. intros p Hp. apply arrangements_perm, Permutation_length in Hp. unfold list_tests. rewrite <- Hp. unfold generate_samples. rewrite gen_flat; auto.
    + cbn [spn_sample]. unfold mix_sample. cbn [m_n m_per m_ev m_class m_mpe m_mpel m_tsum m_ms is_none orb assert lift mbind]. fold a. rewrite expect_bind by auto. apply expect_ext; auto.
    + intros t Ho. cbn [spn_sample] in Ho. unfold mix_sample in Ho. cbn [m_n m_per m_ev m_class m_mpe m_mpel m_tsum m_ms is_none orb assert lift mbind] in Ho. fold a in Ho.
      apply outcome_bind in Ho as [(e & _ & X)|(t0 & Ho & X)]; [discriminate|]. apply outcome_ret_inv in X. injection X as ->. cbn [numbers tmap shape].
      apply outcome_bind in Ho as [(e & _ & X)|(cs & Hcs & Ho)]; [discriminate|].
      destruct (clusters_outcome _ _ _ _ _ _ _ Hcs) as (cs' & X & H1 & H2). assert (cs' = cs) by congruence. subst cs'. cbn in H2.
      left. rewrite <- H2. apply SH; auto; [intros Z; rewrite Z in H2; cbn in H2; lia|apply H1; pose proof (weights_ne ws HW); lia].
  - rewrite (unordered_law EL (length Es) ws phi (fun _ _ _ _ => 1) _ (fun p t => rprod (length qs) (fun i => flat_test s (nth i p (fun _ _ _ _ => 1)) (numbers val (trow t i)))) qs HEL HW Hl Hn).
    + f_equal. 
    + intros cs p Lc Hc Lp. assert (Hcs: cs <> []) by (intros Z; rewrite Z in Lc; cbn in Lc; lia). rewrite <- Lc.
      apply (free_rows_law (fun c k => E <~ lift (component Es c) ;; tag c (sample E (a k))) cs [i_C s; (i_H s * i_W s)%nat] EL HEL None (fun q t => flat_test s q (numbers val t)) phi).
      * intros q t u S G. apply flat_test_ext; [exact S|]. intros idx. cbn [numbers tmap get]. rewrite G. reflexivity.
      * exact Hcs.
      * intros c k Hin Hk. specialize (Hc c Hin). destruct (component_ok Es c Hc) as (E & Ec & En & Ein). rewrite Ec. cbn [lift mbind]. destruct (HA E Ein) as (o & A).
        destruct (einet_sizes s x K o E A) as (EC & EF & _). pose proof (accepted_ok _ _ _ A) as HE. destruct (Hlf E Ein) as [H1 H2]. split.
        -- intros t Ho. destruct (sample_free_out E HE (a k)) as [O _]; auto; try apply args_ok; try exact I; try (cbn; lra).
           apply outcome_tag in Ho. destruct (O _ _ Ho) as (t0 & X & St & _). injection X as <-. cbn in St. rewrite St, EC, EF. reflexivity.
        -- intros h. rewrite expect_tag by auto. etransitivity; [exact (einet_rows val us s x K o E (ELc EL c) k h A (ELc_ok EL c HEL) H1 H2 Hk)|].
           apply rprod_ext. intros n _. unfold phi. rewrite En. reflexivity.
Qed.
Print Assumptions C80_mix_law.
(** The same for mixtures of convolutional circuits. *)
Theorem C80_conv_mix_law : forall V (val : V -> R) us s nc g os (Ps : list (convpc V)) ws predict sts EL (qs : list pixel_test),
  conv_mixture_of nc g (i_C s) (i_H s) (i_W s) os Ps -> conv_fits g (i_H s) (i_W s) -> all_off Ps sts -> (0 < i_C s)%nat -> (0 < i_H s)%nat -> (0 < i_W s)%nat ->
  (forall P, In P Ps -> lf_ctx (cp_leaf P) = true /\ lf_mode (cp_leaf P) <> None) -> (length ws <= length Ps)%nat -> weights_ok ws -> leaf_expectation EL -> (0 < length qs)%nat ->
  lsum (fun p => expect EL (generate_samples val us s (SpnConvMix Ps ws predict sts) (length qs) false) (list_tests s p)) (arrangements qs) =
  INR (fact (length qs)) * lprod (fun q => rsum (length Ps) (fun k => share ws k *
    match nth_error Ps k with
    | Some P => expect (fun key => EL (k :: key)) (generate_samples val us s (SpnConv P (fresh_state P)) 1 false) (list_tests s [q])
    | None => 0
    end)) qs.
Proof.
  intros V val us s nc g os Ps ws predict sts EL qs HM HF Hoff HC HH HW Hlf Hl HWs HEL Hn. destruct (conv_mixture_components _ _ _ _ _ _ _ HM) as (_ & Hpos & HA).
  assert (HHW: (0 < i_H s * i_W s)%nat) by nia.
  set (phi := fun k (q : pixel_test) => match nth_error Ps k with
    | Some P => expect (fun key => EL (k :: key)) (generate_samples val us s (SpnConv P (fresh_state P)) 1 false) (pixel_tests s 1 (fun _ => q)) | None => 0 end).
  set (a := fun k => mkCA (V := V) (Some k) None false true false 1).
  set (comp := fun c k => P <~ lift (conv_component Ps c) ;; tag c (snd (conv_sample P val (state_of P sts c) (a k)))).
  assert (CO: forall c k, (c < length Ps)%nat -> exists P o, nth_error Ps c = Some P /\ In P Ps /\ conv_accepted g (i_C s) (i_H s) (i_W s) o P /\ st_on (state_of P sts c) = false /\
    comp c k = tag c (snd (conv_sample P val (state_of P sts c) (a k)))).
  { intros c k Hc. destruct (nth_error Ps c) as [P|] eqn:En; [|apply nth_error_None in En; lia]. pose proof (nth_error_In _ _ En) as Pin. destruct (HA P Pin) as (o & A).
    exists P, o. split; auto. split; auto. split; auto. split; [apply (comp_off Ps sts Hoff P c En)|]. unfold comp, conv_component. rewrite En. reflexivity. }
  assert (SO: forall c k r, (c < length Ps)%nat -> (0 < k)%nat -> outcome (fun _ _ => True) (comp c k) r -> exists t, r = Ok t /\ shape t = k :: [i_C s; i_H s; i_W s]).
  { intros c k r Hc Hk Ho. destruct (CO c k Hc) as (P & o & En & Pin & A & Hst & E). rewrite E in Ho. apply outcome_tag in Ho. destruct (Hlf P Pin) as [H1 H2].
    destruct (C51_images V g _ _ _ o P val (state_of P sts c) (a k) k _ _ A HF Hst H1 eq_refl eq_refl eq_refl ltac:(cbn; lra) ltac:(auto) Ho) as (t & -> & St & _). eauto. }
  assert (SH: forall cs, cs <> [] -> (forall c, In c cs -> (c < length Ps)%nat) -> forall t, outcome (fun _ _ => True) (cm_sample_free val Ps sts a cs) (Ok t) -> shape t = length cs :: [i_C s; i_H s; i_W s]).
  { intros cs Hcs Hc t Ht.
    destruct (free_rows_ok comp cs [i_C s; i_H s; i_W s] (fun _ _ => True) (fun _ _ => True) Hcs ltac:(auto)) with (r := Ok t) as (t' & X & S & _).
    - intros c k r Hin Hk Ho. destruct (SO c k r (Hc c Hin) Hk Ho) as (t0 & -> & St). eauto.
    - exact Ht.
    - injection X as <-. exact S. }
  transitivity (lsum (fun p => expect EL (cs <~ mix_clusters (length Ps) ws (length qs) None false ;; cm_sample_free val Ps sts a cs)
     (fun t => rprod (length qs) (fun i => flat_test s (nth i p (fun _ _ _ _ => 1)) (trow t i)))) (arrangements qs)).
  - apply lsum_ext. intros p Hp. apply arrangements_perm, Permutation_length in Hp. unfold list_tests. rewrite <- Hp. unfold generate_samples. rewrite gen_flat; auto.
    intros t Ho. cbn [spn_sample] in Ho. unfold cm_sample in Ho. cbn [m_n m_per m_ev m_class m_mpe m_mpel m_tsum m_ms is_none orb negb snd] in Ho. fold a in Ho.
    apply outcome_bind in Ho as [(e & _ & X)|(cs & Hcs & Ho)]; [discriminate|].
    destruct (clusters_outcome _ _ _ _ _ _ _ Hcs) as (cs' & X & H1 & H2). assert (cs' = cs) by congruence. subst cs'. cbn in H2.
    right. rewrite <- H2. apply SH; auto; [intros Z; rewrite Z in H2; cbn in H2; lia|apply H1; pose proof (weights_ne ws HWs); lia].
  - rewrite (unordered_law EL (length Ps) ws phi (fun _ _ _ _ => 1) _ (fun p t => rprod (length qs) (fun i => flat_test s (nth i p (fun _ _ _ _ => 1)) (trow t i))) qs HEL HWs Hl Hn); [reflexivity|].
    intros cs p Lc Hc Lp. assert (Hcs: cs <> []) by (intros Z; rewrite Z in Lc; cbn in Lc; lia). rewrite <- Lc.
    apply (free_rows_law comp cs [i_C s; i_H s; i_W s] EL HEL (Fin 0) (flat_test s) phi); [apply flat_test_ext|exact Hcs|].
    intros c k Hin Hk. split.
    + intros t Ho. destruct (SO c k _ (Hc c Hin) Hk Ho) as (t0 & X & St). injection X as <-. exact St.
    + intros h. destruct (CO c k (Hc c Hin)) as (P & o & En & Pin & A & Hst & E). rewrite E. rewrite expect_tag by auto. destruct (Hlf P Pin) as [H1 H2].
      etransitivity; [exact (conv_gen_rows val us s g o P (state_of P sts c) (ELc EL c) k h A HF Hst HC HH HW (ELc_ok EL c HEL) H1 H2 Hk)|].
      apply rprod_ext. intros n _. unfold phi. rewrite En. reflexivity.
Qed.
Print Assumptions C80_conv_mix_law.

Lemma mean_same I h h' v : (forall u, h u = h' u) -> mean I h v -> mean I h' v.
Proof. intros E M e He. destruct (M e He) as (lo & hi & H1 & H2 & H3 & H4). exists lo, hi. split; auto. split; auto. split; auto. intros u Hu. rewrite <- E. auto. Qed.
Lemma dsample_shape {V} (val : V -> R) us s x K o (E : einet V) n supp t : accepted (einet_config s x K) o E -> lf_ctx (leafE E) = true -> lf_mode (leafE E) <> None -> (0 < n)%nat ->
  outcome supp (dsample val us E (mkArgs (Some n) CNone None false true 1 None)) (Ok t) -> shape t = [n; i_C s; (i_H s * i_W s)%nat].
Proof.
  intros HA Hctx Hm Hn Ho. destruct (einet_sizes s x K o E HA) as (EC & EF & _). pose proof (accepted_ok _ _ _ HA) as HE.
  destruct (C25_sample_follows_partial V val _ o E us n false true 1 supp _ HA Hctx Hn ltac:(lra) ltac:(auto) Ho) as (t' & u & X & Ou & Es & _). injection X as <-.
  destruct (sample_free_out E HE (mkArgs (Some n) CNone None false true 1 None)) as [O _]; auto; try apply args_ok; try exact I; try (cbn; lra).
  destruct (O _ _ Ou) as (u' & X & St & _). injection X as <-. cbn in St. rewrite Es, St, EC, EF. reflexivity.
Qed.
(** differentiable=True: averaged over the uniform numbers of the Gumbel noise, the images of an Einet have the law of those with
    differentiable=False, up to the offset of 1e-20 of the noise (bias, C57). *)
Theorem C80_differentiable_law : forall V (val : V -> R) us s x K o (E : einet V) EL n (q : nat -> pixel_test), accepted (einet_config s x K) o E ->
  lf_ctx (leafE E) = true -> lf_mode (leafE E) <> None -> (0 < n)%nat ->
  leaf_expectation EL -> (forall key f b, (forall v, Rabs (f v) <= b) -> Rabs (EL key f) <= b) -> (forall i c h w v, Rabs (q i c h w v) <= 1) ->
  exists m, mean (uniforms n (net_choices E)) (fun u => expect EL (generate_samples val (fun i idx => u (i :: idx)) s (SpnEinet E) n true) (pixel_tests s n q)) m /\
    Rabs (m - expect EL (generate_samples val us s (SpnEinet E) n false) (pixel_tests s n q)) <= bias E n.
Proof.
  intros V val us s x K o E EL n q HA Hctx Hm Hn HEL Hb Hq. destruct (einet_sizes s x K o E HA) as (EC & EF & EK & HC & HHW).
  set (h := fun t : tensor num => if (length (shape t) =? 3)%nat then rprod n (fun i => flat_test s (q i) (trow t i)) else 0).
  set (h' := fun t : tensor (option V) => if (length (shape t) =? 3)%nat then rprod n (fun i => flat_test s (q i) (numbers val (trow t i))) else 0).
  assert (P1: forall k f, (forall i, Rabs (f i) <= 1) -> Rabs (rprod k f) <= 1).
  { induction k as [|k IH]; intros f Hf; [rewrite rprod_0, Rabs_R1; lra|]. rewrite rprod_S, Rabs_mult. pose proof (IH f Hf). pose proof (Hf k). pose proof (Rabs_pos (rprod k f)). pose proof (Rabs_pos (f k)). nra. }
  destruct (C57_sample_law V val _ o E n true 1 EL h h' 1 HA Hctx Hn R1_neq_R0 ltac:(auto) HEL Hb ltac:(lra)) as (m & M1 & M2).
  - intros t. unfold h'. destruct (length (shape t) =? 3)%nat; [|rewrite Rabs_R0; lra]. apply P1. intros i. unfold flat_test. apply P1. intros c. apply P1. intros f. apply Hq.
  - intros t t' S G W. unfold h, h'. rewrite S. destruct (length (shape t') =? 3)%nat eqn:E3; auto. assert (St: shape t' = [n; i_C s; (i_H s * i_W s)%nat]).
    { rewrite EC, EF in W. destruct W as [(W & _)|[W|(H & W' & W & _)]]; rewrite W in E3 |- *; auto; discriminate E3. }
    apply rprod_ext. intros i Hi. unfold flat_test. apply rprod_ext. intros c Hc. apply rprod_ext. intros f Hf. cbn [trow shape get numbers tmap]. rewrite S, St. cbn [tl length Nat.eqb].
    rewrite G; [reflexivity|]. rewrite S, St. repeat constructor; auto.
  - exists m. rewrite Rmult_1_r in M2. split.
    + eapply mean_same; [|exact M1]. intros u. unfold generate_samples. rewrite gen_flat; auto.
      * cbn [spn_sample]. apply expect_ext_outcome; auto. intros t Ho. unfold h. rewrite (dsample_shape val _ s x K o E n _ t HA Hctx Hm Hn Ho). reflexivity.
      * intros t Ho. left. exact (dsample_shape val _ s x K o E n _ t HA Hctx Hm Hn Ho).
    + replace (expect EL (generate_samples val us s (SpnEinet E) n false) (pixel_tests s n q)) with (expect EL (sample E (mkArgs (Some n) CNone None false true 1 None)) h'); [exact M2|].
      pose proof (accepted_ok _ _ _ HA) as HE.
      assert (SO: forall t, outcome (fun _ _ => True) (sample E (mkArgs (Some n) CNone None false true 1 None)) (Ok t) -> shape t = [n; i_C s; (i_H s * i_W s)%nat]).
      { intros t Ho. destruct (sample_free_out E HE (mkArgs (Some n) CNone None false true 1 None)) as [O _]; auto; try apply args_ok; try exact I; try (cbn; lra).
        destruct (O _ _ Ho) as (t' & X & St & _). injection X as <-. cbn in St. rewrite St, EC, EF. reflexivity. }
      unfold generate_samples. rewrite gen_flat; auto.
      * cbn [spn_sample]. rewrite expect_bind by auto. apply expect_ext_outcome; auto. intros t Ho. unfold h'. rewrite (SO t Ho). reflexivity.
      * intros t Ho. cbn [spn_sample] in Ho. apply outcome_bind in Ho as [(e & _ & X)|(t0 & Ho & X)]; [discriminate|]. apply outcome_ret_inv in X. injection X as ->. left. cbn [numbers tmap shape]. apply SO. exact Ho.
Qed.
Print Assumptions C80_differentiable_law.

(** A single image of a mixture follows the weighted components exactly. *)
Example C80_mix_law_ex : exists E1 E2 : einet nat, exists EL, mixture_of (VInt 2) (einet_config (mkShape 1 5 1) (mkEcfg 2 3 2 2 0 TLinsum SBottomUp) 1) [ex_o third; ex_o quarter] [E1; E2] /\
  leaf_expectation EL /\ forall q,
  expect EL (generate_samples INR (fun _ _ => 0) (mkShape 1 5 1) (SpnMix [E1; E2] [1; 3] (fun _ _ => [])) 1 false) (list_tests (mkShape 1 5 1) [q]) =
  1 / 4 * expect (fun key => EL (0%nat :: key)) (generate_samples INR (fun _ _ => 0) (mkShape 1 5 1) (SpnEinet E1) 1 false) (list_tests (mkShape 1 5 1) [q]) +
  3 / 4 * expect (fun key => EL (1%nat :: key)) (generate_samples INR (fun _ _ => 0) (mkShape 1 5 1) (SpnEinet E2) 1 false) (list_tests (mkShape 1 5 1) [q]).
Proof.
  destruct ex_mixture as (E1 & E2 & M & L1 & L2). assert (HEL: leaf_expectation (EL_discrete 1 (fun _ _ => 1))) by (apply EL_discrete_ok; intros; rewrite rsum_S, rsum_0; ring).
  exists E1, E2, (EL_discrete 1 (fun _ _ => 1)). split; [exact M|]. split; auto. intros q.
  pose proof (C80_mix_law nat INR (fun _ _ => 0) (mkShape 1 5 1) (VInt 2) (mkEcfg 2 3 2 2 0 TLinsum SBottomUp) 1 [ex_o third; ex_o quarter] [E1; E2] [1; 3] (fun _ _ => []) (EL_discrete 1 (fun _ _ => 1)) [q] M) as X.
  specialize (X ltac:(intros E [<-|[<-|[]]]; [rewrite L1|rewrite L2]; (split; [reflexivity|discriminate])) (le_n 2) one_three_ok HEL ltac:(cbn; lia)).
  cbn [arrangements arrange length takes flat_map map app lsum lprod fact nth_error] in X. rewrite !rsum_S, rsum_0 in X. cbn [nth_error] in X. unfold share in X. cbn [nth lsum] in X.
  change (INR (1 * 1)) with 1 in X. etransitivity; [etransitivity; [|exact X]|]; [ring|field].
Qed.
Example C80_differentiable_law_ex : exists E m, accepted (einet_config gs gx 3) byte_o E /\
  mean (uniforms 2 (net_choices E)) (fun u => expect (fun _ (f : nat -> R) => f 0%nat) (generate_samples INR (fun i idx => u (i :: idx)) gs (SpnEinet E) 2 true)
    (pixel_tests gs 2 (fun i c h w v => match v with Fin r => if Rle_dec r (1 / 2) then 1 else 0 | _ => 0 end))) m /\
  Rabs (m - expect (fun _ (f : nat -> R) => f 0%nat) (generate_samples INR (fun _ _ => 0) gs (SpnEinet E) 2 false)
    (pixel_tests gs 2 (fun i c h w v => match v with Fin r => if Rle_dec r (1 / 2) then 1 else 0 | _ => 0 end))) <= bias E 2.
Proof.
  destruct byte_net as (E & A & Lf). exists E.
  destruct (C80_differentiable_law nat INR (fun _ _ => 0) gs gx 3 byte_o E (fun _ f => f 0%nat) 2 (fun i c h w v => match v with Fin r => if Rle_dec r (1 / 2) then 1 else 0 | _ => 0 end) A) as (m & H);
    try (rewrite Lf; reflexivity); try (rewrite Lf; discriminate); try lia; auto.
  - split; auto.
  - intros i c h w v. destruct v as [r| | |]; try (rewrite Rabs_R0; lra). destruct (Rle_dec r (1 / 2)); [rewrite Rabs_R1|rewrite Rabs_R0]; lra.
  - exists m. auto.
Qed.
Example C80_conv_mix_law_ex : exists EL : list nat -> (nat -> R) -> R, leaf_expectation EL /\ forall q1 q2 : pixel_test, let s := mkShape 3 4 8 in
  let one k P q := expect (fun key => EL (k :: key)) (generate_samples INR (fun _ _ => 0) s (SpnConv P (fresh_state P)) 1 false) (list_tests s [q]) in
  let two p := expect EL (generate_samples INR (fun _ _ => 0) s (SpnConvMix ex_cmix [1; 3] (fun _ _ => []) ex_cm_states) 2 false) (list_tests s p) in
  let mix q := 1 / 4 * one 0%nat (ex_conv third grow) q + 3 / 4 * one 1%nat (ex_conv two_fifths nudged) q in
  (two [q1; q2] + two [q2; q1]) / 2 = mix q1 * mix q2.
Proof.
  assert (HEL: leaf_expectation (EL_discrete 1 (fun _ _ => 1))) by (apply EL_discrete_ok; intros; rewrite rsum_S, rsum_0; ring).
  exists (EL_discrete 1 (fun _ _ => 1)). split; auto. intros q1 q2 s one two mix.
  pose proof (C80_conv_mix_law nat INR (fun _ _ => 0) s (VInt 2) cex_bottom _ ex_cmix [1; 3] (fun _ _ => []) ex_cm_states (EL_discrete 1 (fun _ _ => 1)) [q1; q2] ex_cmix_of dex_fits ex_cm_off) as X.
  specialize (X ltac:(cbn; lia) ltac:(cbn; lia) ltac:(cbn; lia) ltac:(intros P [<-|[<-|[]]]; (split; [reflexivity|discriminate])) (le_n 2) one_three_ok HEL ltac:(cbn; lia)).
  change (length ex_cmix) with 2%nat in X. change (INR (fact (length [q1; q2]))) with 2 in X. cbn [lprod] in X. rewrite !rsum_S, !rsum_0 in X. cbn [nth_error ex_cmix] in X. unfold share in X. cbn [nth lsum] in X.
  change (arrangements [q1; q2]) with [[q1; q2]; [q2; q1]] in X. cbn [lsum length] in X. fold ex_cmix in X. fold (one 0%nat (ex_conv third grow) q1) (one 0%nat (ex_conv third grow) q2) (one 1%nat (ex_conv two_fifths nudged) q1) (one 1%nat (ex_conv two_fifths nudged) q2) in X.
  fold (two [q1; q2]) (two [q2; q1]) in X. unfold mix. clearbody one two. apply (f_equal (fun z => z / 2)) in X. etransitivity; [etransitivity; [|exact X]|]; field.
Qed.
