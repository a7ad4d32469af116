(** C58: the multivariate leaves are Gaussian densities, and networks over them are densities of the features. *)
From Coq Require Import List Arith Lia Bool ZArith Reals Lra FunctionalExtensionality.
Import ListNotations.
From Verif Require Import Base RSum Num Tensor Prob Layers Circuit Net RefFwd Leaf Perm RefLeaf TypeChecks Einet RefNet RefEinet RefEinetS Build RefBuild Spec RefSpec Ex PropSample
  Density RefDensity Gauss Integral PropDensity Mv RefMv PropMv MvNormal RefMvNormal.
Local Open Scope R_scope.
Local Arguments Nat.div : simpl never. Local Arguments Nat.modulo : simpl never. Local Arguments Nat.sub : simpl never.
Local Arguments Nat.mul : simpl never. Local Arguments Nat.add : simpl never.

(** * The densities *)
(** Whatever the parameters, torch's validation accepts the matrix. *)
Theorem C58_valid : forall k dl off, lower_cholesky k (scale_tril dl off).
Proof. exact tril_ok. Qed.
Print Assumptions C58_valid.
(** The covariance matrix L L^T. *)
Definition covariance (k : nat) (L : nat -> nat -> R) (i j : nat) : R := rsum k (fun l => L i l * L j l).
(** The quadratic form of the density is (x - mu)^T Sigma^-1 (x - mu). *)
Theorem C58_quadratic : forall k mu dl off x y, let L := scale_tril dl off in
  (forall i, (i < k)%nat -> rsum k (fun j => covariance k L i j * y j) = x i - mu i) ->
  mvn_lp k mu L x = Fin (- (INR k * ln (2 * PI) + rsum k (fun i => (x i - mu i) * y i)) / 2 - rsum k dl).
Proof.
  intros k mu dl off x y L H. pose proof (tril_ok k dl off) as HL. fold L in HL. unfold mvn_lp. cbv zeta.
  set (w := fun l => rsum k (fun j => L j l * y j)).
  assert (Hw: forall i, (i < k)%nat -> rsum k (fun l => L i l * w l) = x i - mu i).
  { intros i Hi. rewrite <- H by auto. unfold w, covariance.
    rewrite (rsum_ext k _ (fun l => rsum k (fun j => L i l * L j l * y j))) by (intros; rewrite <- rsum_scal_l; apply rsum_ext; intros; ring).
    rewrite rsum_swap. apply rsum_ext. intros j _. rewrite <- rsum_scal_r. reflexivity. }
  pose proof (solve_unique L k HL (fun i => x i - mu i) w Hw) as Hz.
  assert (Q: rsum k (fun i => solve L (fun i => x i - mu i) k i ^ 2) = rsum k (fun i => (x i - mu i) * y i)).
  { rewrite (rsum_ext k _ (fun i => w i * w i)) by (intros i Hi; rewrite <- Hz by auto; ring).
    rewrite (rsum_ext k (fun i => (x i - mu i) * y i) (fun i => rsum k (fun l => L i l * w l * y i))) by (intros i Hi; rewrite <- Hw, <- rsum_scal_r by auto; auto).
    rewrite rsum_swap. apply rsum_ext. intros l _. rewrite (rsum_ext k _ (fun i => w l * (L i l * y i))) by (intros; ring). rewrite rsum_scal_l. reflexivity. }
  rewrite Q. f_equal. rewrite (rsum_ext k (fun i => ln (L i i)) dl).
  - field.
  - intros i _. unfold L, scale_tril. rewrite Nat.eqb_refl, Nat.ltb_irrefl, Rplus_0_r. apply ln_exp.
Qed.
Print Assumptions C58_quadratic.
(** Total mass one, by iterated Riemann integrals over the real line. *)
Theorem C58_mass : forall k mu dl off, vintegral k (fun x => pval (mvn_lp k mu (scale_tril dl off) x)) 1.
Proof. intros. apply mvn_mass. apply tril_ok. Qed.
Print Assumptions C58_mass.
(** The samples loc + L eps, with independent standard normal noise, follow the density: the expectation of every function of the sample
    is its integral against the density. *)
Theorem C58_sample_law : forall k mu dl off (h : (nat -> R) -> R) a, let L := scale_tril dl off in
  (forall x y, (forall i, (i < k)%nat -> x i = y i) -> h x = h y) ->
  vintegral k (fun e => h (mvn_rsample k mu L e) * rprod k (fun i => normal_pdf 0 1 (e i))) a ->
  vintegral k (fun x => h x * pval (mvn_lp k mu L x)) a.
Proof. intros k mu dl off h a L Hh. apply sample_integral; auto. apply tril_ok. Qed.
Print Assumptions C58_sample_law.
(** The mean, which mpe returns, is the only mode. *)
Theorem C58_mode : forall k mu dl off x, let L := scale_tril dl off in (exists i, (i < k)%nat /\ x i <> mu i) ->
  pval (mvn_lp k mu L x) < pval (mvn_lp k mu L mu).
Proof.
  intros k mu dl off x L (i & Hi & Hx). pose proof (tril_ok k dl off) as HL. fold L in HL. unfold mvn_lp. cbn [pval]. apply exp_increasing.
  set (z := solve L (fun i => x i - mu i) k).
  assert (Z0: rsum k (fun i => solve L (fun i => mu i - mu i) k i ^ 2) = 0).
  { rewrite (rsum_ext k _ (fun _ => 0)); [apply rsum_zero|]. intros j Hj.
    rewrite <- (solve_unique L k HL (fun i => mu i - mu i) (fun _ => 0)); auto; [ring|]. intros l _. rewrite (rsum_ext k _ (fun _ => 0)) by (intros; ring). rewrite rsum_zero. ring. }
  assert (Zp: 0 < rsum k (fun i => z i ^ 2)).
  { destruct (Rlt_le_dec 0 (rsum k (fun i => z i ^ 2))) as [|Hn]; auto. exfalso.
    assert (Zz: forall j, (j < k)%nat -> z j = 0).
    { intros j Hj. destruct (Req_dec (z j) 0) as [|Hq]; auto. exfalso.
      assert (0 < z j ^ 2) by (rewrite <- Rsqr_pow2; apply Rsqr_pos_lt; auto).
      assert (rsum k (fun i => (if (i =? j)%nat then 1 else 0) * z i ^ 2) <= rsum k (fun i => z i ^ 2)).
      { apply rsum_le. intros i' _. pose proof (pow2_ge_0 (z i')). destruct (i' =? j)%nat; lra. }
      rewrite rsum_indicator in H0 by auto. lra. }
    apply Hx. pose proof (solve_solves L k HL (fun i => x i - mu i) i Hi) as Q. fold z in Q.
    rewrite (rsum_ext k _ (fun _ => 0)) in Q by (intros j Hj; rewrite Zz by auto; ring). rewrite rsum_zero in Q. lra. }
  rewrite Z0. fold z. lra.
Qed.
Print Assumptions C58_mode.

(** * Networks *)
Definition mv_lik (E : einet (nat -> R)) (m : mvleaf R) (x : tensor (option R)) (ms : option (bool * list nat)) (n q : nat) : R :=
  match mv_einet_forward E m x ms with Ok (y, _) => pval (get y [n; q]) | Err _ => 0 end.
(** The features of a row of groups, and the entries of a list of groups in order. *)
Definition features (k : nat) (Z : partial (nat -> R)) : partial R := fun c f =>
  match Z c (f / k)%nat with Some v => Some (v (f mod k)%nat) | None => None end.
Definition entries (k : nat) (gs : list (nat * nat)) : list (nat * nat) := flat_map (fun p => map (fun j => (fst p, (snd p * k + j)%nat)) (seq 0 k)) gs.

Section Convert.
Variables (k : nat) (h : partial R -> R).
Hypothesis Hk : (0 < k)%nat.
(** A row whose group (c, g) is known up to position i. *)
Let part (Z : partial (nat -> R)) (c g i : nat) (v : nat -> R) : partial R := fun c' f' =>
  if ((c' =? c) && (f' / k =? g) && (f' mod k <? i))%nat then Some (v (f' mod k)%nat) else features k Z c' f'.
Lemma part_k Z c g v : part Z c g k v = features k (fill Z c g v).
Proof.
  extensionality c'. extensionality f'. unfold part, features, fill. assert (f' mod k < k)%nat by (apply Nat.mod_upper_bound; lia).
  destruct (c' =? c)%nat; cbn [andb]; auto. destruct (f' / k =? g)%nat; cbn [andb]; auto. destruct (Nat.ltb_spec (f' mod k) k); auto. lia.
Qed.
Lemma part_S Z c g i v x : (i < k)%nat -> fill (part Z c g i v) c (g * k + i) x = part Z c g (S i) (put v i x).
Proof.
  intros Hi. extensionality c'. extensionality f'. unfold part, fill, put.
  destruct (Nat.eqb_spec c' c) as [->|]; cbn [andb]; auto. destruct (Nat.eqb_spec f' (g * k + i)) as [->|Hf]; cbn [andb].
  - replace ((g * k + i) / k)%nat with g by (apply Nat.div_unique with (r := i); lia).
    replace ((g * k + i) mod k)%nat with i by (apply Nat.mod_unique with (q := g); lia). rewrite !Nat.eqb_refl. cbn [andb]. destruct (Nat.ltb_spec i (S i)); auto. lia.
  - destruct (Nat.eqb_spec (f' / k) g) as [Eg|]; cbn [andb]; auto. pose proof (Nat.div_mod f' k ltac:(lia)) as D. rewrite Eg in D.
    destruct (Nat.eqb_spec (f' mod k) i); [exfalso; apply Hf; lia|]. destruct (Nat.ltb_spec (f' mod k) i), (Nat.ltb_spec (f' mod k) (S i)); auto; lia.
Qed.
Lemma part_integral ps Z c g G n : forall i v a, (i + n = k)%nat -> (forall v, integrates (fun _ _ => improper) h ps (features k (fill Z c g v)) (G v)) ->
  coords n i v G a -> integrates (fun _ _ => improper) h (map (fun j => (c, (g * k + j)%nat)) (seq i n) ++ ps) (part Z c g i v) a.
Proof.
  induction n as [|n IH]; intros i v a Hi HG; cbn [coords seq map app].
  - intros ->. replace i with k by lia. rewrite part_k. apply HG.
  - intros (g' & H1 & H2). apply int_cons with (g := g'); auto. intros x. rewrite part_S by lia. apply IH; auto. lia.
Qed.
Lemma convert (H : partial (nat -> R) -> R) qs : forall Z a,
  (forall Z', (forall c g, Z' c g = None -> Z c g = None /\ ~ In (c, g) qs) -> h (features k Z') = H Z') ->
  integrates (fun _ _ => vintegral k) H qs Z a -> integrates (fun _ _ => improper) h (entries k qs) (features k Z) a.
Proof.
  induction qs as [|(c, g) qs IH]; intros Z a HH Hi; inversion Hi; subst; unfold entries; cbn [flat_map].
  - rewrite <- HH; [apply int_nil|]. intros c g Hz. split; [exact Hz|intros []].
  - cbn [fst snd].
    assert (P: part Z c g 0 (fun _ => 0) = features k Z).
    { extensionality c'. extensionality f'. unfold part. rewrite andb_false_r. auto. }
    rewrite <- P. apply part_integral with (G := g0); auto. intros v. apply IH; auto. intros Z' HZ. apply HH. intros c' g' Hn.
    apply HZ in Hn as [F1 F2]. unfold fill in F1. destruct ((c' =? c) && (g' =? g))%nat eqn:B; [discriminate|]. split; auto.
    intros [Q|Q]; auto. inversion Q; subst. rewrite !Nat.eqb_refl in B. discriminate.
Qed.
End Convert.

Lemma mvn_finite C F L Rn k means dl off : (0 < C)%nat -> (0 < F)%nat -> (0 < L)%nat -> (0 < Rn)%nat -> (0 < k)%nat -> group_leaf C F L Rn k (mvn_leaf C F L Rn k means dl off).
Proof.
  intros. split; [repeat split; auto|repeat split; auto|reflexivity|].
  intros key u v Huv. cbn [mvn_leaf mv_logp]. unfold mvn_lp. do 3 f_equal. f_equal. apply rsum_ext. intros i Hi. f_equal. apply solve_ext. intros j Hj. rewrite Huv; auto.
Qed.
Section Net.
Variables (g : config) (o : oracle (nat -> R)) (E : einet (nat -> R)) (G k : nat) (means dl : list nat -> nat -> R) (off : list nat -> nat -> nat -> R).
Let m := mvn_leaf (e_C E) (G * k) (e_L E) (e_R E) k means dl off.
Hypothesis HN : group_net g o E G k m.
Hypothesis Hs : g_struct g = STopDown.
Lemma net_k : (0 < k)%nat.
Proof. destruct HN as (_ & _ & [_ (_ & _ & _ & _ & Q) _ _]). exact Q. Qed.
Lemma net_F : e_F E = G.
Proof.
  destruct HN as (HA & El & H). pose proof (accepted_ok _ _ _ HA) as HE. rewrite <- (eo_lF E HE). fold (leafE E). rewrite El. cbn [shell lf_F]. apply (exact_pad _ _ _ _ _ _ H).
Qed.
Lemma mvn_density : density_leaf (fun _ _ => vintegral k) (leafE E).
Proof.
  destruct HN as (_ & El & _). split; [intros; apply vintegral_linear|]. intros c f l r _ _ _ _. rewrite El.
  apply (li_ext _ (vintegral_linear k) (fun x => pval (mvn_lp k (means [c; f; l; r]) (scale_tril (dl [c; f; l; r]) (off [c; f; l; r])) x))); [reflexivity|]. apply C58_mass.
Qed.
Lemma row_lik Z q : (q < e_K E)%nat -> (forall c i, (c < e_C E)%nat -> (i < G)%nat -> Z c i <> None) ->
  mv_lik E m (row_tensor (e_C E) (G * k) (features k Z)) None 0 q = lik E (row_tensor (e_C E) (e_F E) Z) None 0 q.
Proof.
  intros Hq HZ. pose proof HN as (HA & El & Hg). pose proof (accepted_ok _ _ _ HA) as HE. pose proof net_k as Hk. pose proof net_F as EF.
  set (x := row_tensor (e_C E) (G * k) (features k Z)).
  assert (Hent: forall n c f, entry x n c f = features k Z c f) by reflexivity.
  destruct (C34_network_forward R g o E G k m 1 x None HN Hs) as (y & cs & y' & Ey & Ey' & Sy & Gy & _); [right; left; reflexivity| |exact I|].
  { intros n c f _ Hc Hf. rewrite Hent. unfold features. assert (f / k < G)%nat by (apply Nat.div_lt_upper_bound; lia).
    specialize (HZ c (f / k)%nat Hc H). destruct (Z c (f / k)%nat); congruence. }
  unfold mv_lik. rewrite Ey. rewrite (proj1 (Gy 0%nat q ltac:(lia) Hq)).
  assert (I1: input_ok E 1 (grouped m 1 x) None).
  { split; [right; left; cbn [grouped shape]; rewrite (proj2 (exact_pad _ _ _ _ _ _ Hg)), EF; reflexivity|]. split; auto. intros n c f v _ _ _ _. change (lf_supp (leafE E) v = true). rewrite El. reflexivity. }
  assert (I2: input_ok E 1 (row_tensor (e_C E) (e_F E) Z) None).
  { split; [right; left; reflexivity|]. split; auto. intros n c f v _ _ _ _. change (lf_supp (leafE E) v = true). rewrite El. reflexivity. }
  transitivity (lik E (grouped m 1 x) None 0 q); [unfold lik; rewrite Ey'; reflexivity|].
  rewrite (lik_eval E HE 1 _ None 0 q I1) by (auto; lia). rewrite (lik_eval E HE 1 _ None 0 q I2) by (auto; lia).
  apply neteval_ext; auto; [apply fnet_wf; auto|]. intros c f l r Hc Hf Hl Hr. unfold lval, row. cbn [in_ms]. unfold entry at 1 2. cbn [grouped row_tensor shape ix get].
  cbn [fnet net_with nC nF] in Hc, Hf. rewrite EF in Hf. pose proof (HZ c f Hc Hf) as Hz. destruct (Z c f) as [v|] eqn:Ez; [|congruence].
  unfold pdf. rewrite El. cbn [shell lf_logp]. f_equal. f_equal. apply (gl_ext _ _ _ _ _ _ Hg). intros j Hj. rewrite Hent. unfold features. cbn [m mvn_leaf mv_k].
  replace ((f * k + j) / k)%nat with f by (apply Nat.div_unique with (r := j); lia).
  replace ((f * k + j) mod k)%nat with j by (apply Nat.mod_unique with (q := f); lia). rewrite Ez. reflexivity.
Qed.
Lemma group_integral Z q qs : (q < e_K E)%nat -> missing (e_C E) G Z qs ->
  integrates (fun _ _ => improper) (fun z => mv_lik E m (row_tensor (e_C E) (G * k) z) None 0 q) (entries k qs) (features k Z) (lik E (row_tensor (e_C E) (e_F E) Z) None 0 q).
Proof.
  intros Hq Hm. pose proof HN as (HA & El & Hg). pose proof net_F as EF.
  apply convert with (H := fun Z => lik E (row_tensor (e_C E) (e_F E) Z) None 0 q); [exact net_k| |].
  - intros Z' HZ. apply row_lik; auto. intros c i Hc Hi Hn. apply HZ in Hn as [Hn1 Hn2]. apply Hn2. apply Hm. auto.
  - pose proof (C52_marginal (nat -> R) g o E (fun _ _ => vintegral k) 1 (row_tensor (e_C E) (e_F E) Z) None 0 q qs HA mvn_density) as Q.
    apply Q; auto; try lia.
    + split; [|auto]. split; [right; left; reflexivity|]. intros n c f v _ _ _ _. change (lf_supp (leafE E) v = true). rewrite El. reflexivity.
    + rewrite EF. exact Hm.
Qed.
End Net.

(** [gs] lists the groups of the G*k features that [s] touches, in all C channels; [kept] is the rest of row n. *)
Definition touched_groups (C G k : nat) (s : list nat) (gs : list (nat * nat)) : Prop :=
  NoDup gs /\ forall c i, In (c, i) gs <-> (c < C)%nat /\ (i < G)%nat /\ exists f, In f s /\ (f / k = i)%nat.
Definition kept (C G k : nat) (x : tensor (option R)) (s : list nat) (n : nat) : partial R := fun c f =>
  if ((c <? C) && (f <? G * k) && negb (existsb (fun f' => f' / k =? f / k) s))%nat then entry x n c f else None.
(** Marginalizing features with a tensor of scopes integrates the network over all features of the groups they fall in. *)
Theorem C58_network_marginal : forall g o (E : einet (nat -> R)) G k means dl off N x s n q gs,
  let m := mvn_leaf (e_C E) (G * k) (e_L E) (e_R E) k means dl off in
  group_net g o E G k m -> g_struct g = STopDown -> wshape (shape x) N (e_C E) (G * k) ->
  (forall n c f, (n < N)%nat -> (c < e_C E)%nat -> (f < G * k)%nat -> entry x n c f <> None) ->
  (forall f, In f s -> (f < G * k)%nat) -> (n < N)%nat -> (q < e_K E)%nat -> touched_groups (e_C E) G k s gs ->
  integrates (fun _ _ => improper) (fun z => mv_lik E m (row_tensor (e_C E) (G * k) z) None 0 q) (entries k gs) (kept (e_C E) G k x s n)
    (mv_lik E m x (Some (true, s)) n q).
Proof.
  intros g o E G k means dl off N x s n q gs m HN Hs Hx Hf Hms Hn Hq [Gnd Gin]. pose proof HN as (HA & El & Hg). pose proof (accepted_ok _ _ _ HA) as HE.
  pose proof (net_k g o E G k means dl off HN) as Hk. pose proof (net_F g o E G k means dl off HN) as EF.
  destruct (C34_network_forward R g o E G k m N x (Some (true, s)) HN Hs Hx Hf (conj (fun _ => eq_refl) Hms)) as (y & cs & y' & Ey & Ey' & Sy & Gy & _).
  set (s' := map (fun f => (f / k)%nat) s) in *.
  set (Z := fun c i => if ((c <? e_C E) && (i <? G) && negb (existsb (Nat.eqb i) s'))%nat then
      Some (fun j => match entry x n c (i * k + j) with Some v => v | None => 0 end) else None).
  assert (Ts: forall i, existsb (Nat.eqb i) s' = existsb (fun f' => f' / k =? i)%nat s).
  { intros i. unfold s'. clear. induction s as [|f s IH]; auto. cbn [map existsb]. rewrite IH, Nat.eqb_sym. auto. }
  assert (I1: input_ok E N (grouped m N x) (Some s')).
  { split; [right; left; cbn [grouped shape]; rewrite (proj2 (exact_pad _ _ _ _ _ _ Hg)), EF; reflexivity|]. split.
    - intros n' c f v _ _ _ _. change (lf_supp (leafE E) v = true). rewrite El. reflexivity.
    - split; [|discriminate]. intros i Hi. unfold s' in Hi. apply in_map_iff in Hi as (f & <- & Hif). rewrite EF. apply Nat.div_lt_upper_bound; [lia|]. rewrite Nat.mul_comm. auto. }
  assert (I2: input_ok E 1 (row_tensor (e_C E) (e_F E) Z) None).
  { split; [right; left; reflexivity|]. split; auto. intros n' c f v _ _ _ _. change (lf_supp (leafE E) v = true). rewrite El. reflexivity. }
  assert (Lq: mv_lik E m x (Some (true, s)) n q = lik E (row_tensor (e_C E) (e_F E) Z) None 0 q).
  { unfold mv_lik. rewrite Ey. rewrite (proj1 (Gy n q Hn Hq)). transitivity (lik E (grouped m N x) (Some s') n q); [unfold lik; rewrite Ey'; reflexivity|].
    rewrite (lik_eval E HE N _ (Some s') n q I1) by auto. rewrite (lik_eval E HE 1 _ None 0 q I2) by (auto; lia). apply neteval_row_ext; auto.
    intros c i Hc Hi. rewrite EF in Hi. unfold row. cbn [in_ms]. unfold entry at 1 2. cbn [grouped row_tensor shape ix get]. unfold Z.
    destruct (Nat.ltb_spec c (e_C E)); [|lia]. destruct (Nat.ltb_spec i G); [|lia]. cbn [andb]. destruct (existsb (Nat.eqb i) s'); reflexivity. }
  assert (Kz: kept (e_C E) G k x s n = features k Z).
  { extensionality c. extensionality f. unfold kept, features, Z. rewrite Ts. destruct (Nat.ltb_spec c (e_C E)) as [Hc|]; cbn [andb]; auto.
    destruct (Nat.ltb_spec f (G * k)) as [Hf'|Hf'], (Nat.ltb_spec (f / k) G) as [Hi|Hi]; cbn [andb]; auto.
    - destruct (existsb _ s); cbn [negb]; auto. pose proof (Nat.div_mod f k ltac:(lia)) as D. replace (f / k * k + f mod k)%nat with f by lia.
      specialize (Hf n c f Hn Hc Hf'). destruct (entry x n c f); congruence.
    - exfalso. apply (Nat.lt_irrefl (f / k)). apply Nat.lt_le_trans with G; auto. apply Nat.div_lt_upper_bound; lia.
    - exfalso. pose proof (Nat.div_le_mono (G * k) f k ltac:(lia) Hf') as Q. rewrite Nat.div_mul in Q by lia. lia. }
  rewrite Lq, Kz. apply (group_integral g o E G k means dl off HN Hs); auto. split; auto. intros c i. rewrite Gin. unfold Z. split.
  - intros (Hc & Hi & f & Hfs & Hfi). split; auto. split; auto. destruct (existsb (Nat.eqb i) s') eqn:B; [cbn [negb]; rewrite andb_false_r; auto|].
    rewrite Ts in B. assert (T: existsb (fun f' => f' / k =? i)%nat s = true) by (apply existsb_exists; exists f; split; auto; apply Nat.eqb_eq; auto). congruence.
  - intros (Hc & Hi & Hz). split; auto. split; auto. destruct (Nat.ltb_spec c (e_C E)); [|lia]. destruct (Nat.ltb_spec i G); [|lia]. cbn [andb] in Hz.
    destruct (existsb (Nat.eqb i) s') eqn:B; [|discriminate]. rewrite Ts in B. apply existsb_exists in B as (f & B1 & B2). apply Nat.eqb_eq in B2. eauto.
Qed.
Print Assumptions C58_network_marginal.
(** In particular the network is a density of the features. *)
Theorem C58_network_mass : forall g o (E : einet (nat -> R)) G k means dl off q gs,
  let m := mvn_leaf (e_C E) (G * k) (e_L E) (e_R E) k means dl off in
  group_net g o E G k m -> g_struct g = STopDown -> (q < e_K E)%nat -> missing (e_C E) G (fun _ _ => @None (nat -> R)) gs ->
  integrates (fun _ _ => improper) (fun z => mv_lik E m (row_tensor (e_C E) (G * k) z) None 0 q) (entries k gs) (fun _ _ => None) 1.
Proof.
  intros g o E G k means dl off q gs m HN Hs Hq Hm. pose proof HN as (HA & El & Hg).
  assert (L: lik E (row_tensor (e_C E) (e_F E) (fun _ _ => None)) None 0 q = 1).
  { destruct (forward_missing E (accepted_ok g o E HA) 1 (row_tensor (e_C E) (e_F E) (fun _ _ => None)) None 0 q) as (y & Ey & Gy); auto.
    - apply batch_input. split; [right; left; reflexivity|]. intros n c f v _ _ _ H. discriminate H.
    - unfold lik. rewrite Ey, Gy. cbn [pval]. apply exp_0. }
  pose proof (group_integral g o E G k means dl off HN Hs (fun _ _ => None) q gs Hq Hm) as Q. rewrite L in Q. exact Q.
Qed.
Print Assumptions C58_network_mass.

(** * Example: correlated pairs *)
Definition pair_mean (key : list nat) (j : nat) : R := INR (nth 2 key 0%nat + j).
Definition pair_log (key : list nat) (j : nat) : R := INR j / 2.
Definition pair_off (key : list nat) (i j : nat) : R := 3 / 4.
Definition ex_mvn : mvleaf R := mvn_leaf 2 (5 * 2) 2 2 2 pair_mean pair_log pair_off.
Definition ex_mvn_o : oracle (nat -> R) :=
  mkOracle (fun i idx => grow (i :: idx)) grow grow grow [1; 2; 1; 1]%nat ex_td_perm (fun F C L R => Ok (shell ex_mvn)).
Lemma ex_mvn_oracle : oracle_ok ex_td_g ex_mvn_o.
Proof.
  destruct ex_td_oracle as [O1 O2 O3 O4 O5 O6 O7]. split; auto. eexists. split; [reflexivity|]. split.
  - split; [reflexivity|]. intros. reflexivity.
  - cbn [shell lf_F lf_C lf_L lf_R ex_td_g plain g_F g_C g_L g_R]. rewrite !nval_nat. auto.
Qed.
(** Five pairs, two channels: features 4 and 5 of both channels are marginalized by naming feature 5 only. *)
Example C58_ex : exists E, group_net ex_td_g ex_mvn_o E 5 2 (mvn_leaf (e_C E) (5 * 2) (e_L E) (e_R E) 2 pair_mean pair_log pair_off) /\
  touched_groups (e_C E) 5 2 [5]%nat [(0, 2); (1, 2)]%nat /\ entries 2 [(0, 2); (1, 2)]%nat = [(0, 4); (0, 5); (1, 4); (1, 5)]%nat /\
  integrates (fun _ _ => improper) (fun z => mv_lik E ex_mvn (row_tensor 2 10 z) None 0 2) (entries 2 [(0, 2); (1, 2)]%nat) (kept 2 5 2 ex_ten [5]%nat 0)
    (mv_lik E ex_mvn ex_ten (Some (true, [5]%nat)) 0 2).
Proof.
  destruct (build_succeeds ex_td_g ex_mvn_o) as (E & HE).
  - apply plain_valid; try lia; try lra; try congruence. simpl; lia.
  - reflexivity.
  - exact ex_mvn_oracle.
  - exists 0%R. split; [constructor|lra].
  - cbn [ex_td_g plain g_depth zval]. lia.
  - discriminate.
  - exists E. assert (A: accepted ex_td_g ex_mvn_o E) by (split; [reflexivity|exact ex_mvn_oracle|exact HE]).
    destruct (build_inv ex_td_g ex_mvn_o E eq_refl ex_mvn_oracle HE) as (HEo & EF & EC & ER & EK).
    cbn [ex_td_g plain g_F g_C g_R g_K] in *. rewrite nval_nat in *.
    assert (LE: leafE E = shell ex_mvn).
    { unfold build in HE. apply bind_ok in HE as ([] & _ & HE). cbn [ex_td_g plain g_struct] in HE. unfold build_top_down in HE.
      apply bind_ok in HE as (? & _ & HE). apply bind_ok in HE as (? & _ & HE). apply bind_ok in HE as (? & _ & HE).
      apply bind_ok in HE as (lf & Hl & HE). apply bind_ok in HE as (? & _ & HE). apply bind_ok in HE as (? & _ & HE).
      inversion HE. unfold leafE. cbn [e_leaf]. unfold build_input in Hl. cbn [ex_mvn_o o_leaf] in Hl.
      unfold ex_td_g, plain in Hl. cbn [g_F g_C g_L g_R] in Hl. rewrite !nval_nat in Hl. cbn [bind Nat.eqb] in Hl. inversion Hl. reflexivity. }
    assert (EL2: e_L E = 2%nat) by (rewrite <- (eo_lL E HEo); fold (leafE E); rewrite LE; reflexivity).
    assert (HN: group_net ex_td_g ex_mvn_o E 5 2 (mvn_leaf (e_C E) (5 * 2) (e_L E) (e_R E) 2 pair_mean pair_log pair_off)).
    { rewrite EC, EL2, ER. split; [exact A|]. split; [exact LE|]. rewrite EC, EL2, ER. apply mvn_finite; lia. }
    assert (T: touched_groups (e_C E) 5 2 [5]%nat [(0, 2); (1, 2)]%nat).
    { rewrite EC. split; [repeat constructor; cbn; intros H; repeat destruct H as [H|H]; try congruence; auto|]. intros c i. split.
      - intros [H|[H|[]]]; inversion H; subst; (split; [lia|split; [lia|exists 5%nat; split; [left; auto|reflexivity]]]).
      - intros (Hc & Hi & f & [<-|[]] & Hf). change (5 / 2)%nat with 2%nat in Hf. subst i. assert (c = 0 \/ c = 1)%nat as [-> | ->] by lia; [left|right; left]; auto. }
    split; [exact HN|]. split; [exact T|]. split; [reflexivity|].
    pose proof (C58_network_marginal ex_td_g ex_mvn_o E 5 2 pair_mean pair_log pair_off 1 ex_ten [5]%nat 0 2 [(0, 2); (1, 2)]%nat HN eq_refl) as Q. cbv zeta in Q.
    rewrite EC, EL2, ER in Q. apply Q; clear Q.
    + right; left; reflexivity.
    + intros. unfold entry. cbn. discriminate.
    + intros f [<-|[]]. lia.
    + lia.
    + rewrite EK. lia.
    + rewrite EC in T. exact T.
Qed.
(** The density of one pair: covariance ((1, 3/4), (3/4, 9/16 + e)). *)
Example C58_quadratic_ex : exists y, forall i, (i < 2)%nat ->
  rsum 2 (fun j => covariance 2 (scale_tril (fun j => INR j / 2) (fun _ _ => 3 / 4)) i j * y j) = (if (i =? 0)%nat then 1 else 2) - 0.
Proof.
  pose proof (exp_pos 1) as He.
  assert (Hh: exp (1 / 2) * exp (1 / 2) = exp 1) by (rewrite <- exp_plus; f_equal; lra).
  exists (fun j => if (j =? 0)%nat then 1 - 3 / 4 * ((5 / 4) / exp 1) else (5 / 4) / exp 1). intros i Hi.
  assert (Hd: INR 0 / 2 = 0) by (simpl; lra). assert (Hd1: INR 1 / 2 = 1 / 2) by (simpl; lra).
  assert (i = 0 \/ i = 1)%nat as [-> | ->] by lia; unfold covariance, scale_tril; rewrite !rsum_S, !rsum_0; cbn [Nat.eqb Nat.ltb Nat.leb]; rewrite Hd, ?Hd1, exp_0; [field; lra|].
  set (h := exp (1 / 2)) in *. rewrite <- Hh. field. unfold h. pose proof (exp_pos (1 / 2)). lra.
Qed.
(** The probability that the first value of a correlated pair lies in an interval. *)
Example C58_sample_ex : forall u v, u <= v -> let L := scale_tril (fun j => INR j / 2) (fun _ _ => 3 / 4) in
  vintegral 2 (fun x => between u v (x 0%nat) * pval (mvn_lp 2 (fun _ => 0) L x)) (normal_cdf 0 1 v - normal_cdf 0 1 u).
Proof.
  intros u v H L. apply (C58_sample_law 2 (fun _ => 0) (fun j => INR j / 2) (fun _ _ => 3 / 4) (fun x => between u v (x 0%nat))).
  - intros x y Hxy. rewrite Hxy by lia. auto.
  - exists (fun x => normal_pdf 0 1 x * between u v x). split; [|apply normal_between; auto; lra]. intros x.
    assert (Hs: forall e, mvn_rsample 2 (fun _ => 0) L e 0 = e 0%nat).
    { intros e. unfold mvn_rsample, L, scale_tril. rewrite !rsum_S, rsum_0. cbn [Nat.eqb Nat.ltb Nat.leb]. replace (INR 0 / 2) with 0 by (simpl; lra). rewrite exp_0. ring. }
    exists (fun y => normal_pdf 0 1 x * between u v x * normal_pdf 0 1 y). split.
    + intros y. cbn [coords]. fold L. rewrite Hs, !rprod_S, rprod_0. unfold put. cbn [Nat.eqb]. ring.
    + pose proof (li_scal _ improper_linear (normal_pdf 0 1 x * between u v x) _ _ (normal_mass 0 1 ltac:(lra))) as Q. rewrite Rmult_1_r in Q. exact Q.
Qed.
