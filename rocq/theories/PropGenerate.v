(** C80: images generated by the Lightning programs. *)
From Coq Require Import List Arith Lia Bool ZArith Reals Lra Permutation.
Import ListNotations.
From Verif Require Import Base RSum Num Tensor Prob Layers Circuit Net RefFwd RefSample RefLaw Leaf Perm RefLeaf RefLeafS TypeChecks Einet RefNet RefEinet RefEinetS RefMpe
  Build RefBuild Spec RefSpec RefSpecS RefPack RefDensityS Mixture RefMixture PropMix Diff RefDiff PropDiff Family Train
  ConvPc RefConv RefConvNet RefConvS PropConv PropConvD ConvMix RefConvMix PropConvMix RefTrees PropTrees PropDBinom PropDensity PropLeaf Generate RefGenerate Ex.
Local Open Scope R_scope.
Local Arguments Nat.div : simpl never. Local Arguments Nat.modulo : simpl never. Local Arguments Nat.sub : simpl never.
Local Arguments Nat.mul : simpl never. Local Arguments Nat.add : simpl never.

(** * Vocabulary *)
(** [n] images in which every pixel satisfies [Q i c h w] *)
Definition images_with (s : ishape) (n : nat) (Q : nat -> nat -> nat -> nat -> num -> Prop) (t : tensor num) : Prop :=
  shape t = [n; i_C s; i_H s; i_W s] /\
  forall i c h w, (i < n)%nat -> (c < i_C s)%nat -> (h < i_H s)%nat -> (w < i_W s)%nat -> Q i c h w (get t [i; c; h; w]).
(** The product of one test per pixel *)
Definition pixel_tests (s : ishape) (n : nat) (q : nat -> nat -> nat -> nat -> num -> R) (t : tensor num) : R :=
  rprod n (fun i => rprod (i_C s) (fun c => rprod (i_H s) (fun h => rprod (i_W s) (fun w => q i c h w (get t [i; c; h; w]))))).

Lemma finish_images {V} (val : V -> R) s n (t : tensor num) (Q : nat -> nat -> nat -> num -> Prop) :
  (0 < i_C s)%nat -> (0 < i_H s * i_W s)%nat -> (0 < n)%nat ->
  (shape t = [n; i_C s; (i_H s * i_W s)%nat] /\ forall i c f, (i < n)%nat -> (c < i_C s)%nat -> (f < i_H s * i_W s)%nat -> Q i c f (get t [i; c; f])) \/
  (shape t = [n; i_C s; i_H s; i_W s] /\ forall i c h w, (i < n)%nat -> (c < i_C s)%nat -> (h < i_H s)%nat -> (w < i_W s)%nat -> Q i c (h * i_W s + w)%nat (get t [i; c; h; w])) ->
  exists u, (x <- view_infer [] [i_C s; i_H s; i_W s] t ;; Ok (tmap (fun v => ndiv v (Fin 255)) x)) = Ok u /\
    images_with s n (fun i c h w p => exists v, Q i c (h * i_W s + w)%nat v /\ p = ndiv v (Fin 255)) u.
Proof.
  intros HC HW Hn Ht. destruct (view_images t n (i_C s) (i_H s) (i_W s)) as (u & Eu & Su & Gu); auto; [tauto|].
  rewrite Eu. cbn [bind]. eexists. split; [reflexivity|]. split; [exact Su|]. intros i c h w Hi Hc Hh Hw. cbn [tmap get]. rewrite Gu by auto.
  eexists. split; [|reflexivity]. destruct Ht as [(St & Gt)|(St & Gt)]; rewrite St; cbn [length Nat.eqb]; [apply Gt; auto using flat_lt|apply Gt; auto].
Qed.
Lemma div255 x : ndiv (Fin x) (Fin 255) = Fin (x / 255).
Proof. apply ndiv_fin. lra. Qed.

Section Sizes.
Context {V : Type}.
Variables (s : ishape) (x : ecfg) (K : nat) (o : oracle V) (E : einet V).
Hypothesis HA : accepted (einet_config s x K) o E.
Lemma einet_sizes : e_C E = i_C s /\ e_F E = (i_H s * i_W s)%nat /\ e_K E = K /\ (0 < i_C s)%nat /\ (0 < i_H s * i_W s)%nat.
Proof.
  destruct HA as [H1 H2 H3]. destruct (build_inv _ _ _ H1 H2 H3) as (HO & EF & EC & ER & EK).
  unfold einet_config in EF, EC, EK. cbn [g_F g_C g_K] in EF, EC, EK. rewrite nval_nat in EF, EC, EK. unfold num_pixels in EF. rewrite Nat.mul_comm in EF.
  pose proof (eo_F E HO). pose proof (eo_C E HO). repeat split; auto; lia.
Qed.
End Sizes.

(** The models that SpnGenerative.__init__ can hold, with their leaves.  conv_fits: the image can be divided as often as the
    circuit asks for; st: not inside a gradient block. *)
Inductive made {V} (s : ishape) : spn (V := V) -> list (bleaf V) -> Prop :=
| made_einet x K o E : accepted (einet_config s x K) o E -> made s (SpnEinet E) [leafE E]
| made_conv g o P st : conv_accepted g (i_C s) (i_H s) (i_W s) o P -> conv_fits g (i_H s) (i_W s) -> st_on st = false -> made s (SpnConv P st) [cp_leaf P]
| made_mix nc x K os Es ws predict : mixture_of nc (einet_config s x K) os Es -> (0 < length ws <= length Es)%nat -> made s (SpnMix Es ws predict) (map leafE Es)
| made_conv_mix nc g os Ps ws predict sts : conv_mixture_of nc g (i_C s) (i_H s) (i_W s) os Ps -> conv_fits g (i_H s) (i_W s) -> all_off Ps sts ->
    (0 < length ws <= length Ps)%nat -> made s (SpnConvMix Ps ws predict sts) (map (fun P => cp_leaf P) Ps).

(** Image [i] consists of modes of the leaves [lf], divided by 255. *)
Definition mode_image {V} (val : V -> R) (s : ishape) (t : tensor num) (i : nat) (lf : bleaf V) : Prop :=
  exists md, lf_mode lf = Some md /\ forall c h w, (c < i_C s)%nat -> (h < i_H s)%nat -> (w < i_W s)%nat ->
    exists l q, (l < lf_L lf)%nat /\ (q < lf_R lf)%nat /\ get t [i; c; h; w] = Fin (val (md [c; h * i_W s + w; l; q]%nat) / 255).

Lemma outcome_lift {V A} (supp : list nat -> V -> Prop) (x : res A) r : outcome supp (lift x) r -> r = x.
Proof. destruct x; intros H; inversion H; auto. Qed.

(** What the sampling call of a model returns *)
Definition raw_image {V} (val : V -> R) (s : ishape) (v : nat -> nat -> num) (lf : bleaf V) : Prop :=
  exists md, lf_mode lf = Some md /\ forall c f, (c < i_C s)%nat -> (f < i_H s * i_W s)%nat ->
    exists l q, (l < lf_L lf)%nat /\ (q < lf_R lf)%nat /\ v c f = Fin (val (md [c; f; l; q]%nat)).
Definition raw_images {V} (val : V -> R) (s : ishape) (n : nat) (lfs : list (bleaf V)) (t : tensor num) : Prop :=
  (shape t = [n; i_C s; (i_H s * i_W s)%nat] /\ forall i, (i < n)%nat -> exists lf, In lf lfs /\ raw_image val s (fun c f => get t [i; c; f]) lf) \/
  (shape t = [n; i_C s; i_H s; i_W s] /\ forall i, (i < n)%nat -> exists lf, In lf lfs /\ raw_image val s (fun c f => get t [i; c; f / i_W s; f mod i_W s]%nat) lf).
Lemma generate_from {V} (val : V -> R) us s m n d lfs supp r :
  (0 < i_C s)%nat -> (0 < i_H s * i_W s)%nat -> (0 < n)%nat ->
  (forall r, outcome supp (spn_sample val us m n d) r -> exists t, r = Ok t /\ raw_images val s n lfs t) ->
  outcome supp (generate_samples val us s m n d) r ->
  exists t, r = Ok t /\ shape t = [n; i_C s; i_H s; i_W s] /\ forall i, (i < n)%nat -> exists lf, In lf lfs /\ mode_image val s t i lf.
Proof.
  intros HC HW Hn HS Ho. unfold generate_samples in Ho. apply outcome_bind in Ho as [(e & Ho & ->)|(t & Ht & Ho)].
  { destruct (HS _ Ho) as (t & X & _). discriminate. }
  destruct (HS _ Ht) as (t' & X & HR). injection X as <-. apply outcome_lift in Ho. subst r.
  destruct (view_images t n (i_C s) (i_H s) (i_W s)) as (u & Eu & Su & Gu); auto; [destruct HR as [[Z _]|[Z _]]; auto|].
  rewrite Eu. cbn [bind]. eexists. split; [reflexivity|]. split; [exact Su|]. intros i Hi.
  destruct HR as [(St & HR)|(St & HR)]; destruct (HR i Hi) as (lf & Hin & md & Em & Hp); exists lf; (split; [exact Hin|]); exists md; (split; [exact Em|]); intros c h w Hc Hh Hw;
    destruct (Hp c (h * i_W s + w)%nat Hc (flat_lt _ _ _ _ Hh Hw)) as (l & q & Hl & Hq & Gp); exists l, q; (split; [exact Hl|]); (split; [exact Hq|]);
    cbn [tmap get]; rewrite Gu by auto; rewrite St; cbn [length Nat.eqb].
  - rewrite Gp. apply div255.
  - rewrite flat_div, flat_mod in Gp by auto. rewrite Gp. apply div255.
Qed.

Lemma args_ok {V} (E : einet V) n b T : check_args E (mkArgs (Some n) CNone None false b T None) = Ok tt.
Proof. unfold check_args. cbn. destruct (e_K E =? 1)%nat; reflexivity. Qed.
Lemma einet_raw {V} (val : V -> R) us s x K o (E : einet V) n d supp r : accepted (einet_config s x K) o E -> lf_ctx (leafE E) = true -> lf_mode (leafE E) <> None -> (0 < n)%nat ->
  outcome supp (spn_sample val us (SpnEinet E) n d) r -> exists t, r = Ok t /\ raw_images val s n [leafE E] t.
Proof.
  intros HA Hctx Hm Hn Ho. destruct (einet_sizes s x K o E HA) as (EC & EF & _). pose proof (accepted_ok _ _ _ HA) as HE.
  assert (HS: forall r, outcome supp (sample E (mkArgs (Some n) CNone None false true 1 None)) r -> exists t, r = Ok t /\ raw_images val s n [leafE E] (numbers val t) /\ shape t = [n; i_C s; (i_H s * i_W s)%nat]).
  { intros r' Hr. destruct (sample_free_out E HE (mkArgs (Some n) CNone None false true 1 None)) as [O _]; auto; try apply args_ok; try exact I; try (cbn; lra).
    destruct (O supp r' Hr) as (t & -> & St & Gt). cbn in St, Gt. rewrite EC, EF in St, Gt. exists t. split; auto. split; auto. left. split; [exact St|]. intros i Hi. exists (leafE E). split; [left; auto|].
    destruct (lf_mode (leafE E)) as [md|] eqn:Em; [|congruence]. exists md. split; auto. intros c f Hc Hf. destruct (Gt i c f Hi Hc Hf) as (v & Gv & l & q & Hl & Hq & md' & Em' & ->).
    rewrite <- (eo_lL E HE) in Hl. rewrite <- (eo_lR E HE) in Hq. unfold leafE in *. exists l, q. split; auto. split; auto. cbn [numbers tmap get]. rewrite Gv. do 3 f_equal; congruence. }
  destruct d; cbn [spn_sample] in Ho.
  - destruct (C25_sample_follows_partial V val _ o E us n false true 1 supp r HA Hctx Hn ltac:(lra) ltac:(auto) Ho) as (t & t' & -> & Ot & Es & Gt & _).
    destruct (HS _ Ot) as (t2 & X & HR & St). injection X as <-. exists t. split; auto. rewrite St in Es.
    destruct HR as [(S1 & HR)|(S1 & HR)]; [|exfalso; cbn [numbers tmap shape] in S1; rewrite St in S1; discriminate].
    left. split; auto. intros i Hi. destruct (HR i Hi) as (lf & Hin & md & Em & Hp). exists lf. split; auto. exists md. split; auto. intros c f Hc Hf.
    destruct (Hp c f Hc Hf) as (l & q & Hl & Hq & G). exists l, q. split; auto. split; auto. rewrite Gt; [exact G|]. rewrite Es. repeat constructor; auto.
  - apply outcome_bind in Ho as [(e & Ho & ->)|(t & Ht & Ho)].
    + destruct (HS _ Ho) as (t & X & _). discriminate.
    + destruct (HS _ Ht) as (t' & X & HR & _). injection X as <-. apply outcome_ret_inv in Ho. subst r. eauto.
Qed.

(** * Images *)
(** Every generated image has the shape of the data and consists of modes of leaves of one component, divided by 255. *)
Theorem C80_images : forall V (val : V -> R) us s m lfs n supp r,
  made s m lfs -> (0 < i_C s)%nat -> (0 < i_H s)%nat -> (0 < i_W s)%nat -> (0 < n)%nat ->
  (forall lf, In lf lfs -> lf_ctx lf = true /\ lf_mode lf <> None) ->
  outcome supp (generate_samples val us s m n false) r ->
  exists t, r = Ok t /\ shape t = [n; i_C s; i_H s; i_W s] /\ forall i, (i < n)%nat -> exists lf, In lf lfs /\ mode_image val s t i lf.
Proof.
  intros V val us s m lfs n supp r HM HC HH HW Hn Hlf Ho. assert (HHW: (0 < i_H s * i_W s)%nat) by nia. apply (generate_from val us s m n false lfs supp r HC HHW Hn); auto. clear Ho r. intros r Ho.
  destruct HM as [x K o E HA|g o P st HA HF Hst|nc x K os Es ws predict HM Hw|nc g os Ps ws predict sts HM HF Hoff Hw].
  - destruct (Hlf _ (or_introl eq_refl)) as [H1 H2]. apply (einet_raw val us s x K o E n false supp r HA H1 H2 Hn Ho).
  - cbn [spn_sample] in Ho. destruct (Hlf _ (or_introl eq_refl)) as [H1 H2].
    destruct (C51_images V g _ _ _ o P val st (mkCA (Some n) None false true false 1) n supp r HA HF Hst H1 eq_refl eq_refl eq_refl ltac:(cbn; lra) ltac:(auto) Ho) as (t & -> & St & Gt).
    exists t. split; auto. right. split; auto. intros i Hi. exists (cp_leaf P). split; [left; auto|]. destruct (lf_mode (cp_leaf P)) as [md|] eqn:Em; [|congruence]. exists md. split; auto.
    intros c f Hc Hf. destruct (flat_split f _ _ Hf) as (h & w & Hh & Hw & ->). rewrite flat_div, flat_mod by auto. destruct (Gt i c h w Hi Hc Hh Hw) as (l & v & Hl & Gv & md' & Em' & ->).
    destruct (accepted_conv_ok _ _ _ _ _ _ HA HF) as (ul & HP). destruct (build_conv_inv _ _ _ _ _ _ HA) as (c0 & rest & EC & _ & _ & _ & EL & _). destruct (co_leafs _ _ HP) as [A1 A2 A3 A4 A5 A6 A7 A8 A9].
    rewrite EC in Hl. cbn [hd] in Hl. exists l, 0%nat. split; [congruence|]. split; [lia|]. rewrite Gv. do 2 f_equal; congruence.
  - cbn [spn_sample] in Ho. destruct (mixture_components _ _ _ _ HM) as (_ & Hpos & HA).
    assert (Hl1: forall E, In E Es -> lf_ctx (leafE E) = true) by (intros E HE; apply Hlf, in_map; auto).
    assert (Hl2: forall E, In E Es -> lf_mode (leafE E) <> None) by (intros E HE; apply Hlf, in_map; auto).
    assert (HS: forall r, outcome supp (mix_sample Es ws predict (mkMArgs (Some n) None CNone None false true 1 None)) r -> exists t, r = Ok t /\ raw_images val s n (map leafE Es) (numbers val t)).
    { clear Ho r. intros r Ho. unfold mix_sample in Ho. cbn [m_n m_per m_ev m_class m_mpe m_mpel m_tsum m_ms is_none orb assert lift mbind] in Ho.
      apply outcome_bind in Ho as [(e' & Ho & ->)|(cs & Hcs & Ho)].
      { apply clusters_fail in Ho as (Z0 & Z1 & _). solve [discriminate|lia]. }
      destruct (clusters_outcome _ _ _ _ _ _ _ Hcs) as (cs' & X & H1 & H2). assert (cs' = cs) by congruence. subst cs'. clear X. cbn in H2.
      destruct (C32_rows_partial V _ _ os Es cs CNone false true 1 None supp r HM Hl1) as (t & src & -> & St & Pm & Gt); auto; try lia; try lra; try exact I; [split; auto|].
      exists t. split; auto. left. cbn [einet_config g_C g_F] in St, Gt. rewrite !nval_nat in St, Gt. unfold num_pixels in St, Gt. rewrite (Nat.mul_comm (i_W s)) in St, Gt. rewrite H2 in St, Gt.
      split; [exact St|]. intros i Hi. destruct (Gt i 0%nat 0%nat Hi HC HHW) as (E & _ & HE & _). exists (leafE E). pose proof (nth_error_In _ _ HE) as HEin. split; [apply in_map; auto|].
      destruct (HA E HEin) as (o & HAE). pose proof (accepted_ok _ _ _ HAE) as HEO.
      destruct (lf_mode (leafE E)) as [md|] eqn:Em; [|exfalso; apply (Hl2 E HEin); auto]. exists md. split; auto. intros c f Hc Hf.
      destruct (Gt i c f Hi Hc Hf) as (E' & v & HE' & Gv & l & q & Hl & Hq & md' & Em' & ->). assert (E' = E) by congruence. subst E'.
      rewrite <- (eo_lL E HEO) in Hl. rewrite <- (eo_lR E HEO) in Hq. unfold leafE in *. exists l, q. split; auto. split; auto. cbn [numbers tmap get]. unfold entry in Gv. rewrite St in Gv. cbn [ix length Nat.eqb] in Gv. rewrite Gv. do 3 f_equal; congruence. }
    apply outcome_bind in Ho as [(e & Ho & ->)|(t & Ht & Ho)].
    + destruct (HS _ Ho) as (t & X & _). discriminate.
    + destruct (HS _ Ht) as (t' & X & HR). injection X as <-. apply outcome_ret_inv in Ho. subst r. eauto.
  - cbn [spn_sample] in Ho.
    destruct (C79_images V nc g _ _ _ os Ps ws predict sts val (mkMArgs (Some n) None CNone None false true 1 None) supp r HM HF) as (_ & t & -> & St & Gt); auto.
    + intros P HP. apply Hlf, (in_map (fun P => cp_leaf P)). auto.
    + cbn. lra.
    + intros _ P HP. apply Hlf, (in_map (fun P => cp_leaf P)). auto.
    + cbn in St, Gt. exists t. split; auto. right. split; auto. intros i Hi. destruct (Gt i Hi) as (k & P & HP & Gp). pose proof (nth_error_In _ _ HP) as HPin. exists (cp_leaf P).
      split; [apply (in_map (fun P => cp_leaf P)); auto|]. destruct (Hlf (cp_leaf P)) as [_ Hm]; [apply (in_map (fun P => cp_leaf P)); auto|]. destruct (lf_mode (cp_leaf P)) as [md|] eqn:Em; [|congruence].
      exists md. split; auto. intros c f Hc Hf. destruct (flat_split f _ _ Hf) as (h & w & Hh & Hw' & ->). rewrite flat_div, flat_mod by auto. destruct (Gp c h w Hc Hh Hw') as (l & v & Hl & Gv & md' & Em' & ->).
      destruct (conv_mixture_components _ _ _ _ _ _ _ HM) as (_ & _ & HA). destruct (HA P HPin) as (o & HAP).
      destruct (accepted_conv_ok _ _ _ _ _ _ HAP HF) as (ul & HPO). destruct (build_conv_inv _ _ _ _ _ _ HAP) as (c0 & rest & EC & _ & _ & _ & EL & _). destruct (co_leafs _ _ HPO) as [A1 A2 A3 A4 A5 A6 A7 A8 A9].
      rewrite EC in Hl. cbn [hd] in Hl. exists l, 0%nat. split; [congruence|]. split; [lia|]. rewrite Gv. do 2 f_equal; congruence.
Qed.
Print Assumptions C80_images.

(** differentiable=True works for an Einet, ... *)
Theorem C80_differentiable_partial : forall V (val : V -> R) us s x K o (E : einet V) n supp r,
  accepted (einet_config s x K) o E -> lf_ctx (leafE E) = true -> lf_mode (leafE E) <> None -> (0 < n)%nat ->
  outcome supp (generate_samples val us s (SpnEinet E) n true) r ->
  exists t, r = Ok t /\ shape t = [n; i_C s; i_H s; i_W s] /\ forall i, (i < n)%nat -> mode_image val s t i (leafE E).
Proof.
  intros V val us s x K o E n supp r HA H1 H2 Hn Ho. destruct (einet_sizes s x K o E HA) as (_ & _ & _ & HC & HW).
  destruct (generate_from val us s (SpnEinet E) n true [leafE E] supp r HC HW Hn) as (t & -> & St & G); auto.
  - intros r' Hr. apply (einet_raw val us s x K o E n true supp r' HA H1 H2 Hn Hr).
  - exists t. split; auto. split; auto. intros i Hi. destruct (G i Hi) as (lf & [<-|[]] & X). auto.
Qed.
Print Assumptions C80_differentiable_partial.
(** ... and raises for every other model. *)
Theorem C80_differentiable_refuted : forall V (val : V -> R) us s m n,
  (forall E, m <> SpnEinet E) -> generate_samples (V := V) val us s m n true = Fail TypeErr.
Proof. intros V val us s [E|P st|Es ws p|Ps ws p sts] n H; try reflexivity. destruct (H E eq_refl). Qed.
Print Assumptions C80_differentiable_refuted.

(** * The law of the images *)
Lemma finite_choice {A} (d : A) (Q : nat -> A -> Prop) K : (forall y, (y < K)%nat -> exists p, Q y p) -> exists f, forall y, (y < K)%nat -> Q y (f y).
Proof.
  induction K as [|K IH]; intros H; [exists (fun _ => d); intros; lia|]. destruct IH as (f & Hf); [intros; apply H; lia|].
  destruct (H K ltac:(lia)) as (p & Hp). exists (fun y => if (y =? K)%nat then p else f y). intros y Hy. destruct (Nat.eqb_spec y K) as [->|]; auto. apply Hf. lia.
Qed.
(** Weight of class [y]: the root's softmax, or 1 for a single class *)
Definition class_weight {V} (o : oracle V) (K y : nat) : R :=
  if (1 <? K)%nat then exp (toR (o_root o [0; y; 0; 0]%nat)) / rsum K (fun j => exp (toR (o_root o [0; j; 0; 0]%nat))) else 1.
(** The tests of one image of modes, with leaf [lf f] of repetition [q] for pixel [f] *)
Definition mode_tests {V} (val : V -> R) (s : ishape) (md : list nat -> V) (lf : nat -> nat) (q : nat) (t : nat -> nat -> nat -> num -> R) : R :=
  rprod (i_C s) (fun c => rprod (i_H s) (fun h => rprod (i_W s) (fun w => t c h w (Fin (val (md [c; h * i_W s + w; lf (h * i_W s + w); q]%nat) / 255))))).

Lemma pixel_flat s n q u t : (0 < i_C s)%nat -> (0 < i_H s * i_W s)%nat -> (0 < n)%nat -> shape t = [n; i_C s; (i_H s * i_W s)%nat] \/ shape t = [n; i_C s; i_H s; i_W s] ->
  (x <- view_infer [] [i_C s; i_H s; i_W s] t ;; Ok (tmap (fun v => ndiv v (Fin 255)) x)) = Ok u ->
  pixel_tests s n q u = rprod3 n (i_C s) (i_H s * i_W s) (fun i c f => q i c (f / i_W s) (f mod i_W s)
     (ndiv (if (length (shape t) =? 3)%nat then get t [i; c; f] else get t [i; c; f / i_W s; f mod i_W s]) (Fin 255)))%nat.
Proof.
  intros HC HW Hn Ht E. destruct (view_images t n (i_C s) (i_H s) (i_W s)) as (v & Ev & Sv & Gv); auto. rewrite Ev in E. cbn [bind] in E. injection E as <-.
  unfold pixel_tests, rprod3. apply rprod_ext. intros i Hi. apply rprod_ext. intros c Hc. rewrite rprod_flat. apply rprod_ext. intros h Hh. apply rprod_ext. intros w Hw.
  rewrite flat_div, flat_mod by auto. cbn [tmap get]. rewrite Gv by auto. reflexivity.
Qed.

(** Images of an Einet are independent.  A class is chosen by its weight and one component of the mixture of products that the class is;
    the image shows the modes of the chosen leaves.  For the configurations whose samples follow the likelihood, the components are those
    of the likelihood. *)
Theorem C80_law : forall V (val : V -> R) us s x K o (E : einet V) EL md, accepted (einet_config s x K) o E -> leaf_expectation EL ->
  lf_ctx (leafE E) = true -> lf_mode (leafE E) = Some md ->
  exists ps : nat -> list component_of,
    (forall y, (y < K)%nat -> components E (ps y)) /\
    (consistent (einet_config s x K) -> forall y N z ms j, (y < K)%nat -> evidence E N z ms -> (j < N)%nat ->
       lik E z ms j y = lsum (fun p => co_w p * product_density E z ms j p) (ps y)) /\
    forall n q, (0 < n)%nat ->
      expect EL (generate_samples val us s (SpnEinet E) n false) (pixel_tests s n q) =
      rprod n (fun i => rsum K (fun y => class_weight o K y * lsum (fun p => co_w p * mode_tests val s md (PropTrees.co_leaf p) (co_rep p) (q i)) (ps y))).
Proof.
  intros V val us s x K o E EL md HA HEL Hctx Hmd. pose proof (accepted_ok _ _ _ HA) as HE. destruct (einet_sizes s x K o E HA) as (EC & EF & EK & HC & HHW).
  pose proof (snet_wf E HE 1) as HW.
  destruct (finite_choice [] (fun y ps => (forall p, In p ps -> 0 < p_w p /\ (p_r p < e_R E)%nat /\ forall f, (f < e_F E)%nat -> (p_l p f < e_L E)%nat) /\
     forall q, neteval (snet E 1) q y = lsum (fun p => p_w p * rprod (e_F E) (fun f => rprod (e_C E) (fun c => q c f (p_l p f) (p_r p)))) ps) K) as (ps & Hps).
  { intros y Hy. apply (net_trees (snet E 1) y HW). cbn [snet net_with nCls]. lia. }
  exists (fun y => map (fun p => mkComp (p_w p) (p_r p) (p_l p)) (ps y)). split; [|split].
  - intros y Hy. destruct (Hps y Hy) as (Hp & Hq). split.
    + intros p Hi. apply in_map_iff in Hi as (p' & <- & Hi). apply (Hp p' Hi).
    + intros p Hi. apply in_map_iff in Hi as (p' & <- & Hi). apply (Hp p' Hi).
    + intros p f Hi Hf. apply in_map_iff in Hi as (p' & <- & Hi). apply (Hp p' Hi); auto.
    + rewrite lsum_map. cbn [co_w]. apply (trees_one (snet E 1) y (ps y) HW); [cbn [snet net_with nCls]; lia|exact Hq].
  - intros Hco y N z ms j Hy Hev Hj. destruct (Hps y Hy) as (_ & Hq). assert (Hy': (y < e_K E)%nat) by lia.
    rewrite (proj1 (lik_net _ o E N z ms j y HA Hev Hj Hy')), <- (sample_net E _ y HE (agree_groups _ o E HA Hco) Hy'), Hq, lsum_map.
    apply lsum_ext. intros p _. cbn [co_w]. f_equal.
    unfold product_density. apply rprod_ext. intros f _. apply rprod_ext. intros c _. unfold lval. rewrite row_observed. cbn [PropTrees.co_leaf co_rep]. reflexivity.
  - intros n q Hn. set (a := mkArgs (V := V) (Some n) CNone None false true 1 None).
    set (g := fun i c f (v : option V) => q i c (f / i_W s)%nat (f mod i_W s)%nat (ndiv (match v with Some v => Fin (val v) | None => NaN end) (Fin 255))).
    transitivity (expect EL (sample E a) (fun t => rprod3 n (e_C E) (e_F E) (fun i c f => g i c f (get t [i; c; f])))).
    + unfold generate_samples. cbn [spn_sample]. fold a. rewrite !expect_bind by auto. apply expect_ext_outcome; auto. intros t Ho. cbn [mbind expect].
      destruct (sample_free_out E HE a) as [O _]; auto; try apply args_ok; try exact I; try (cbn; lra); [intros _; unfold leafE in Hmd; congruence|].
      destruct (O _ _ Ho) as (t' & X & St & _). injection X as <-. cbn in St. rewrite EC, EF in St.
      destruct (view_images (numbers val t) n (i_C s) (i_H s) (i_W s)) as (u & Eu & Su & Gu); auto. rewrite Eu. cbn [bind lift expect].
      rewrite (pixel_flat s n q _ (numbers val t)); auto; [|rewrite Eu; reflexivity]. cbn [numbers tmap shape get]. rewrite St, EC, EF. cbn [length Nat.eqb]. reflexivity.
    + etransitivity; [exact (sample_mode_law E HE EL HEL md Hmd a (args_ok E n true 1) I eq_refl Hn eq_refl eq_refl ltac:(cbn; lra) Hctx g)|]. cbn [num_samples a a_n a_ev a_tsum].
      apply rprod_ext. intros i Hi. rewrite EK. apply rsum_ext. intros y Hy. f_equal.
      * unfold cweight, class_weight. rewrite EK. destruct (Nat.ltb_spec 1 K) as [HK|]; auto. cbn [a a_class a_tsum]. rewrite <- EK in HK, Hy |- *. rewrite (wroot_soft _ o E y HA HK Hy). reflexivity.
      * destruct (Hps y Hy) as (_ & Hq). rewrite Hq, lsum_map. apply lsum_ext. intros p _. cbn [co_w PropTrees.co_leaf co_rep]. f_equal.
        rewrite EC, EF, rprod_swap. unfold mode_tests. apply rprod_ext. intros c Hc. rewrite rprod_flat. apply rprod_ext. intros h Hh. apply rprod_ext. intros w Hw.
        unfold at_mode, g. rewrite flat_div, flat_mod by auto. rewrite div255. reflexivity.
Qed.
Print Assumptions C80_law.

(** The same for a convolutional circuit, with the components of its likelihood. *)
Theorem C80_conv_law : forall V (val : V -> R) us s g o (P : convpc V) st EL md, conv_accepted g (i_C s) (i_H s) (i_W s) o P -> conv_fits g (i_H s) (i_W s) -> st_on st = false ->
  (0 < i_C s)%nat -> (0 < i_H s)%nat -> (0 < i_W s)%nat -> leaf_expectation EL -> lf_ctx (cp_leaf P) = true -> lf_mode (cp_leaf P) = Some md ->
  exists ps, pixel_components P ps /\
    (forall st N z j, images P N z -> (j < N)%nat -> clik P st z j = lsum (fun p => pl_w p * image_density P z j p) ps) /\
    forall n q, (0 < n)%nat ->
      expect EL (generate_samples val us s (SpnConv P st) n false) (pixel_tests s n q) =
      rprod n (fun i => lsum (fun p => pl_w p * mode_tests val s md (pl_leaf p) 0 (q i)) ps).
Proof.
  intros V val us s g o P st EL md HA HF Hst HC HH HW HEL Hctx Hmd. destruct (accepted_conv_ok _ _ _ _ _ _ HA HF) as (ul & HP).
  destruct (build_conv_inv _ _ _ _ _ _ HA) as (c0 & rest & _ & EC & EH & EW & _).
  pose proof (conv_net_wf P ul HP 1) as HN. assert (H0: (0 < nCls (conv_net P ul 1))%nat) by (cbn; lia).
  destruct (net_trees (conv_net P ul 1) 0 HN H0) as (ps & Hps & Hq). pose proof (trees_one (conv_net P ul 1) 0 ps HN H0 Hq) as H1.
  exists (map (fun p => mkPL (p_w p) (p_l p)) ps). split; [|split].
  - split.
    + intros p Hp. apply in_map_iff in Hp as (p' & <- & Hp). apply (Hps p' Hp).
    + intros p f Hp Hf. apply in_map_iff in Hp as (p' & <- & Hp). apply (Hps p' Hp); auto.
    + rewrite lsum_map. exact H1.
  - intros st' N z j Hx Hj. rewrite (clik_eval' P ul HP st' N) by auto. rewrite Hq, lsum_map. apply lsum_ext. intros p Hp. cbn [pl_w]. f_equal.
    unfold image_density. rewrite rprod_swap. cbn [conv_net nC nF]. apply rprod_ext. intros c _. rewrite rprod_flat. apply rprod_ext. intros h Hh. apply rprod_ext. intros w Hw'.
    unfold lval, image. rewrite flat_div, flat_mod by auto. cbn [pl_leaf]. destruct (Hps p Hp) as (_ & Hr & _). cbn [conv_net nR] in Hr.
    assert (p_r p = 0%nat) as -> by lia. reflexivity.
  - intros n q Hn. assert (HHW: (0 < i_H s * i_W s)%nat) by nia.
    set (gg := fun i c f (v : num) => q i c (f / i_W s)%nat (f mod i_W s)%nat (ndiv v (Fin 255))).
    transitivity (expect EL (snd (conv_sample P val st (mkCA (Some n) None false true false 1)))
      (fun t => rprod3 n (cp_C P) (cp_H P * cp_W P) (fun i c f => gg i c f (get t [i; c; f / cp_W P; f mod cp_W P]%nat)))).
    + unfold generate_samples. cbn [spn_sample]. rewrite expect_bind by auto. apply expect_ext_outcome; auto. intros t Ho.
      destruct (C51_images V g _ _ _ o P val st (mkCA (Some n) None false true false 1) n _ _ HA HF Hst Hctx eq_refl eq_refl eq_refl ltac:(cbn; lra) ltac:(intros _; congruence) Ho) as (t' & X & St & _).
      injection X as <-. destruct (view_images t n (i_C s) (i_H s) (i_W s)) as (u & Eu & Su & Gu); auto. rewrite Eu. cbn [bind lift expect].
      rewrite (pixel_flat s n q _ t); auto; [|rewrite Eu; reflexivity]. rewrite St, EC, EH, EW. cbn [length Nat.eqb]. reflexivity.
    + rewrite (conv_mode_law P ul HP EL HEL val md Hmd st n 1 gg Hst Hctx) by lra. apply rprod_ext. intros i Hi. rewrite Hq, lsum_map. apply lsum_ext. intros p Hp. cbn [pl_w pl_leaf]. f_equal.
      cbn [conv_net nC nF]. rewrite rprod_swap, EC, EH, EW. unfold mode_tests. apply rprod_ext. intros c Hc. rewrite rprod_flat. apply rprod_ext. intros h Hh. apply rprod_ext. intros w Hw'.
      unfold at_mode, gg. rewrite flat_div, flat_mod by auto. rewrite div255. destruct (Hps p Hp) as (_ & Hr & _). cbn [conv_net nR] in Hr. assert (p_r p = 0%nat) as -> by lia. reflexivity.
Qed.
Print Assumptions C80_conv_law.

(** * Generated images as data *)
(** Binomial leaves of 255 trials: pixels are grey values between 0 and 1, and preprocess turns them into counts that the leaves accept. *)
Definition count_leaf (total : nat) (lf : bleaf nat) : Prop :=
  exists sgm F C L Rn par, lf = binomial_leaf sgm F C L Rn total par /\ forall key, 0 <= sgm (par key) < 1.
Theorem C80_round_trip : forall us s m lfs n total supp r,
  made s m lfs -> (0 < i_C s)%nat -> (0 < i_H s)%nat -> (0 < i_W s)%nat -> (0 < n)%nat -> INR total = 255 ->
  (forall lf, In lf lfs -> count_leaf total lf) ->
  outcome supp (generate_samples INR us s m n false) r ->
  exists t, r = Ok t /\ images_with s n (fun _ _ _ _ v => exists p j, v = Fin p /\ 0 <= p <= 1 /\ lit_preprocess true p = INR j /\
    forall lf, In lf lfs -> lf_supp lf j = true) t.
Proof.
  intros us s m lfs n total supp r HM HC HH HW Hn HT Hlf Ho.
  destruct (C80_images nat INR us s m lfs n supp r HM HC HH HW Hn) as (t & -> & St & G); auto.
  { intros lf Hin. destruct (Hlf lf Hin) as (sg & F & C & L & Rn & par & -> & _). split; [reflexivity|discriminate]. }
  exists t. split; auto. split; auto. intros i c h w Hi Hc Hh Hw. destruct (G i Hi) as (lf & Hin & md & Em & Hp). destruct (Hp c h w Hc Hh Hw) as (l & q & _ & _ & Gp).
  destruct (Hlf lf Hin) as (sg & F & C & L & Rn & par & -> & Hs). cbn [binomial_leaf lf_mode] in Em. injection Em as <-.
  set (key := [c; (h * i_W s + w)%nat; l; q]) in *. pose proof (mode_range total (sg (par key)) (Hs key)) as MR. rewrite HT in MR.
  eexists. exists (binomial_mode total (sg (par key))). split; [exact Gp|]. split; [lra|]. split; [unfold lit_preprocess; field|].
  intros lf' Hin'. destruct (Hlf lf' Hin') as (sg' & F' & C' & L' & R' & par' & -> & _). cbn [binomial_leaf lf_supp]. apply Nat.ltb_lt.
  apply Nat.lt_succ_r, INR_le. rewrite HT. tauto.
Qed.
Print Assumptions C80_round_trip.

(** Other leaves see unscaled data, but generated images are divided by 255 all the same: in a network with Normal leaves no pixel of the
    second channel has the mean of any of its leaves. *)
Theorem C80_scale_refuted : exists s x K o (E : einet R), accepted (einet_config s x K) o E /\ leafE E = normal_leaf 5 2 2 2 nmean nlogvar /\
  forall us n supp r, (0 < n)%nat -> outcome supp (generate_samples (fun v => v) us s (SpnEinet E) n false) r ->
    exists t, r = Ok t /\ forall i h w, (i < n)%nat -> (h < i_H s)%nat -> (w < i_W s)%nat ->
      exists p, get t [i; 1; h; w]%nat = Fin p /\ forall l q, lit_preprocess false p <> nmean [1; h * i_W s + w; l; q]%nat.
Proof.
  destruct ex_n as (E & HA & HF & HC & HR & HK & HL & Lf). exists (mkShape 2 5 1), (mkEcfg 2 3 2 2 0 TEinsum STopDown), 3%nat, ex_n_o, E. split; [exact HA|]. split; [exact Lf|].
  intros us n supp r Hn Ho. destruct (C80_images R (fun v => v) us (mkShape 2 5 1) (SpnEinet E) [leafE E] n supp r) as (t & -> & St & G); auto; try (cbn; lia).
  - exact (made_einet (mkShape 2 5 1) (mkEcfg 2 3 2 2 0 TEinsum STopDown) 3 ex_n_o E HA).
  - intros lf [<-|[]]. rewrite Lf. split; [reflexivity|discriminate].
  - exists t. split; auto. intros i h w Hi Hh Hw. destruct (G i Hi) as (lf & [<-|[]] & md & Em & Hp). rewrite Lf in Em, Hp. cbn [normal_leaf lf_mode lf_L lf_R] in Em, Hp. injection Em as <-.
    destruct (Hp 1%nat h w ltac:(cbn; lia) Hh Hw) as (l & q & Hl & Hq & Gp). eexists. split; [exact Gp|]. cbn [i_H i_W] in *. intros l' q'. unfold lit_preprocess, normal_mode, nmean.
    cbn [list_sum fold_right]. set (a := (1 + (h * 1 + w + (l + (q + 0))))%nat). set (b := (1 + (h * 1 + w + (l' + (q' + 0))))%nat).
    assert (Ha: INR a <= INR 7) by (apply le_INR; unfold a; lia). assert (Hb: INR 1 <= INR b) by (apply le_INR; unfold b; lia). cbn [INR] in Ha, Hb. lra.
Qed.
Print Assumptions C80_scale_refuted.

(** Images of one pixel cannot be modelled by an Einet; get_data_shape gives the synthetic data sets two channels of one pixel. *)
Theorem C80_one_pixel_refuted : forall V s x K (o : oracle V), (num_pixels s <= 1)%nat -> exists e, build (einet_config s x K) o = Err e.
Proof.
  intros V s x K o H. destruct (build (einet_config s x K) o) as [E|e] eqn:Eb; [exfalso|eauto]. unfold build in Eb. apply bind_ok in Eb as ([] & Hv & _).
  unfold assert_valid in Hv. apply bind_ok in Hv as ([] & _ & Hv). apply bind_ok in Hv as ([] & Hv & _). cbn [einet_config g_F] in Hv.
  destruct (check_int_inv _ 2 ltac:(lia) Hv) as (Hz & _). unfold zval in Hz. cbn in Hz. lia.
Qed.
Print Assumptions C80_one_pixel_refuted.
Definition gx0 : ecfg := mkEcfg 0 3 2 2 0 TEinsum STopDown.
Example C80_one_pixel_ex : exists e, build (einet_config (mkShape 2 1 1) gx0 2) ex_td_o = Err e.
Proof. apply C80_one_pixel_refuted. unfold num_pixels. cbn [i_W i_H]. lia. Qed.

(** * Concrete models *)
Definition gs : ishape := mkShape 2 5 1.
Definition gx : ecfg := mkEcfg 2 3 2 2 0 TEinsum STopDown.
(** An Einet with Binomial leaves of 255 trials *)
Definition byte : nat := Z.to_nat 255.
Lemma byte_INR : INR byte = 255.
Proof. unfold byte. rewrite INR_IZR_INZ, Z2Nat.id by lia. reflexivity. Qed.
Definition byte_leaf (F C L Rn : nat) : bleaf nat := binomial_leaf rsigmoid F C L Rn byte (fun key => INR (list_sum key)).
Definition byte_o : oracle nat :=
  mkOracle (fun i idx => grow (i :: idx)) grow grow grow [1; 2; 1; 1]%nat ex_td_perm (fun F C L R => Ok (byte_leaf F C L R)).
Lemma byte_net : exists E, accepted (einet_config gs gx 3) byte_o E /\ leafE E = byte_leaf 5 2 2 2.
Proof.
  change (einet_config gs gx 3) with ex_td_g. assert (O: oracle_ok ex_td_g byte_o).
  { destruct ex_td_oracle. split; cbn [byte_o o_logits o_top o_mix o_root o_sizes o_perm o_leaf] in *; auto.
    unfold ex_td_g, plain. cbn [g_F g_C g_L g_R]. rewrite !nval_nat. eexists. split; [reflexivity|]. split; [|repeat split].
    split; [reflexivity|]. intros. apply C47_binomial. }
  destruct (build_succeeds ex_td_g byte_o) as (E & HE); auto.
  - apply plain_valid; try lia; try lra; try congruence. simpl; lia.
  - exists 0%R. split; [constructor|lra].
  - cbn [ex_td_g plain g_depth zval]. lia.
  - discriminate.
  - exists E. split; [split; auto|]. unfold build in HE. apply bind_ok in HE as ([] & _ & HE). cbn [ex_td_g plain g_struct] in HE. unfold build_top_down in HE.
    apply bind_ok in HE as (? & _ & HE). apply bind_ok in HE as (? & _ & HE). apply bind_ok in HE as (? & _ & HE).
    apply bind_ok in HE as (lf & Hl & HE). apply bind_ok in HE as (? & _ & HE). apply bind_ok in HE as (? & _ & HE).
    inversion HE. unfold leafE. cbn [e_leaf]. unfold build_input in Hl. cbn [byte_o o_leaf] in Hl.
    unfold ex_td_g, plain in Hl. cbn [g_F g_C g_L g_R] in Hl. rewrite !nval_nat in Hl. cbn [bind Nat.eqb] in Hl. inversion Hl. reflexivity.
Qed.
(** Four images, in both branches; all pixels can be trained on. *)
Example C80_round_trip_ex : exists E, made gs (SpnEinet E) [leafE E] /\
  (forall supp r, outcome supp (generate_samples INR (fun _ _ => 1 / 2) gs (SpnEinet E) 4 false) r ->
     exists t j, r = Ok t /\ shape t = [4; 2; 5; 1]%nat /\ get t [3; 1; 4; 0]%nat = Fin (INR j / 255) /\ (j <= byte)%nat) /\
  forall supp r, outcome supp (generate_samples INR (fun _ _ => 1 / 2) gs (SpnEinet E) 4 true) r -> exists t, r = Ok t /\ shape t = [4; 2; 5; 1]%nat.
Proof.
  destruct byte_net as (E & A & Lf). exists E. assert (M: made gs (SpnEinet E) [leafE E]) by exact (made_einet gs gx 3 byte_o E A). split; auto. split; intros supp r Ho.
  - destruct (C80_round_trip (fun _ _ => 1 / 2) gs (SpnEinet E) [leafE E] 4 byte supp r M) as (t & -> & St & G); auto; try (cbn; lia); [apply byte_INR| |].
    + intros lf [<-|[]]. rewrite Lf. do 6 eexists. split; [reflexivity|]. intros key. pose proof (sigmoid_range (INR (list_sum key))). lra.
    + destruct (G 3%nat 1%nat 4%nat 0%nat) as (p & j & Gp & _ & Ej & Hs); try (cbn; lia). exists t, j. split; auto. split; auto. split.
      * rewrite Gp. f_equal. unfold lit_preprocess in Ej. lra.
      * specialize (Hs _ (or_introl eq_refl)). rewrite Lf in Hs. unfold byte_leaf in Hs. cbn [binomial_leaf lf_supp] in Hs. apply Nat.ltb_lt in Hs. lia.
  - destruct (C80_differentiable_partial nat INR (fun _ _ => 1 / 2) gs gx 3 byte_o E 4 supp r A) as (t & -> & St & _); try (rewrite Lf; reflexivity); try (rewrite Lf; discriminate); auto; try lia. exists t. auto.
Qed.
(** The law of its images *)
Example C80_law_ex : exists E EL (ps : nat -> list component_of), accepted (einet_config gs gx 3) byte_o E /\ leaf_expectation EL /\ (forall y, (y < 3)%nat -> components E (ps y)) /\
  forall q, expect EL (generate_samples INR (fun _ _ => 0) gs (SpnEinet E) 2 false) (pixel_tests gs 2 q) =
    rprod 2 (fun i => rsum 3 (fun y => class_weight byte_o 3 y * lsum (fun p => co_w p * mode_tests INR gs (fun key => binomial_mode byte (rsigmoid (INR (list_sum key)))) (PropTrees.co_leaf p) (co_rep p) (q i)) (ps y))).
Proof.
  destruct byte_net as (E & A & Lf). assert (HEL: leaf_expectation (EL_discrete 1 (fun _ _ => 1))) by (apply EL_discrete_ok; intros; rewrite rsum_S, rsum_0; ring).
  destruct (C80_law nat INR (fun _ _ => 0) gs gx 3 byte_o E _ _ A HEL ltac:(rewrite Lf; reflexivity) ltac:(rewrite Lf; reflexivity)) as (ps & H1 & _ & H2).
  exists E, (EL_discrete 1 (fun _ _ => 1)), ps. do 3 (split; [assumption|]). intros q. apply H2. lia.
Qed.
(** Convolutional circuits, mixtures of Einets and mixtures of circuits *)
Example C80_made_ex : made (mkShape 2 4 8) (SpnConv dex_P (fresh_state dex_P)) [cp_leaf dex_P] /\
  (exists E1 E2 : einet nat, made (mkShape 1 5 1) (SpnMix [E1; E2] [1; 3] (fun _ _ => [])) [leafE E1; leafE E2]) /\
  made (mkShape 3 4 8) (SpnConvMix ex_cmix [1; 3] (fun _ _ => []) ex_cm_states) (map (fun P => cp_leaf P) ex_cmix).
Proof.
  split; [|split].
  - apply (made_conv (mkShape 2 4 8) cex_bottom dex_oracle); [apply dex_accepted|apply dex_fits|reflexivity].
  - destruct ex_mixture as (E1 & E2 & M & _). exists E1, E2. apply (made_mix (mkShape 1 5 1) (VInt 2) (mkEcfg 2 3 2 2 0 TLinsum SBottomUp) 1 [ex_o third; ex_o quarter] [E1; E2]); [exact M|cbn; lia].
  - eapply (made_conv_mix (mkShape 3 4 8) (VInt 2) cex_bottom); [exact ex_cmix_of|apply dex_fits|apply ex_cm_off|cbn; lia].
Qed.
Example C80_images_ex : forall supp r, outcome supp (generate_samples INR (fun _ _ => 0) (mkShape 3 4 8) (SpnConvMix ex_cmix [1; 3] (fun _ _ => []) ex_cm_states) 7 false) r ->
  exists t, r = Ok t /\ shape t = [7; 3; 4; 8]%nat.
Proof.
  intros supp r Ho. destruct (C80_images nat INR (fun _ _ => 0) (mkShape 3 4 8) _ _ 7 supp r (proj2 (proj2 C80_made_ex))) as (t & -> & St & _); auto; try (cbn; lia); [|exists t; auto].
  intros lf H. apply in_map_iff in H as (P & <- & [<-|[<-|[]]]); (split; [reflexivity|discriminate]).
Qed.
Example C80_conv_law_ex : exists EL ps, leaf_expectation EL /\ pixel_components dex_P ps /\ forall q,
  expect EL (generate_samples (fun v => v) (fun _ _ => 0) (mkShape 2 4 8) (SpnConv dex_P (fresh_state dex_P)) 3 false) (pixel_tests (mkShape 2 4 8) 3 q) =
  rprod 3 (fun i => lsum (fun p => pl_w p * mode_tests (fun v => v) (mkShape 2 4 8) nmean (pl_leaf p) 0 (q i)) ps).
Proof.
  set (EL := fun (_ : list nat) (f : R -> R) => f 0). assert (HEL: leaf_expectation EL) by (split; unfold EL; auto).
  destruct (C80_conv_law R (fun v => v) (fun _ _ => 0) (mkShape 2 4 8) cex_bottom dex_oracle dex_P (fresh_state dex_P) EL nmean dex_accepted dex_fits eq_refl) as (ps & H1 & _ & H2); auto; try (cbn; lia).
  exists EL, ps. do 2 (split; [assumption|]). intros q. apply H2. lia.
Qed.
