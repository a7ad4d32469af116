(** Theorems about differentiable sampling (C25). *)
From Coq Require Import List Arith Lia Bool ZArith Reals Lra.
Import ListNotations.
From Verif Require Import Base RSum Num Tensor Prob Layers Circuit Net RefFwd RefSample RefLaw Leaf Perm RefLeaf RefLeafS TypeChecks Einet RefNet RefEinet RefEinetS
  Build RefBuild Spec RefSpec RefPack Diff RefDiff Ex ExBad.
Local Open Scope R_scope.
Local Arguments Nat.div : simpl never.
Local Arguments Nat.modulo : simpl never.
Local Arguments Nat.sub : simpl never.
Local Arguments Nat.mul : simpl never.
Local Arguments Nat.add : simpl never.

(** * The straight-through sample *)
Lemma simple_argmax (u : list nat -> R) (mpe : bool) (lw : tensor num) N D K :
  (0 < K)%nat -> shape lw = [N; D; K] -> (forall n d k, (n < N)%nat -> (d < D)%nat -> (k < K)%nat -> 0 <= u [n; d; k] < 1) ->
  (forall n d k, (n < N)%nat -> (d < D)%nat -> (k < K)%nat -> isfin (get lw [n; d; k]) = true) ->
  exists oh, SIMPLE u mpe lw 2 = Ok oh /\ shape oh = [N; D; K] /\
    forall n d, (n < N)%nat -> (d < D)%nat -> forall k, (k < K)%nat ->
      get oh [n; d; k] = if (k =? nargmax K (fun k => Fin (toR (get lw [n; d; k]) + (if mpe then 0 else rgumbel (u [n; d; k])))))%nat then Fin 1 else Fin 0.
Proof.
  intros HK Sl Hu Hf.
  assert (B: exists b, (if mpe then Ok lw else badd lw (mkT (shape lw) (fun idx => gumbel (u idx)))) = Ok b /\ shape b = [N; D; K] /\
    forall n d k, (n < N)%nat -> (d < D)%nat -> (k < K)%nat -> get b [n; d; k] = Fin (toR (get lw [n; d; k]) + (if mpe then 0 else rgumbel (u [n; d; k])))).
  { destruct mpe.
    - exists lw. split; auto. split; auto. intros n d k Hn Hd Hk. rewrite Rplus_0_r. symmetry. rewrite (isfin_Fin _ (Hf n d k Hn Hd Hk)) at 2. reflexivity.
    - unfold badd. destruct (bop_same nadd lw (mkT (shape lw) (fun idx => gumbel (u idx)))) as (b & Eb & Sb & Gb); auto.
      exists b. split; auto. split; [congruence|]. intros n d k Hn Hd Hk. rewrite Gb by (rewrite Sl; simpl; auto). cbn [get]. rewrite gumbel_fin by auto.
      rewrite (isfin_Fin _ (Hf n d k Hn Hd Hk)) at 1. reflexivity. }
  destruct B as (b & Eb & Sb & Gb). unfold SIMPLE. cbv zeta. rewrite Eb. cbn [bind].
  set (kt := targmax 2 (tsoftmax 2 b)). set (yh := mkT (shape lw) _). set (y := tmap nexp lw).
  assert (Sy: shape yh = shape y) by reflexivity.
  destruct (bop_same nsub yh y Sy) as (s & Es & Ss & Gs). unfold bsub. rewrite Es. cbn [bind].
  destruct (bop_same nadd s y) as (o & Eo & So & Go); [rewrite Ss; auto|]. unfold badd. rewrite Eo.
  exists o. split; auto. split; [rewrite So, Ss; exact Sl|]. intros n d Hn Hd.
  set (f := fun k => toR (get lw [n; d; k]) + (if mpe then 0 else rgumbel (u [n; d; k]))).
  assert (Ek: get kt [n; d] = nargmax K (fun k => Fin (f k))).
  { unfold kt, targmax, reduce. cbn [get]. unfold tsoftmax, size. cbn [shape]. rewrite Sb. cbn [nth insert_nth].
    apply (nargmax_exp_softmax K f); auto. intros k Hk. cbn [get set_nth]. 
    rewrite (nsum_fin K _ (fun j => exp (f j))).
    - rewrite Gb by auto. cbn [nexp]. apply ndiv_fin. apply Rgt_not_eq. apply (rsumexp_pos K f); auto.
    - intros j Hj. cbn [insert_nth]. rewrite Gb by auto. reflexivity. }
  intros k Hk. rewrite Go by (rewrite Ss; cbn [yh shape]; rewrite Sl; simpl; auto). rewrite Gs by (cbn [yh shape]; rewrite Sl; simpl; auto).
  unfold yh, y. cbn [get tmap nth remove_nth]. rewrite (isfin_Fin _ (Hf n d k Hn Hd Hk)). cbn [nexp nsub nneg nadd]. rewrite Ek. unfold f.
  destruct (k =? _)%nat; f_equal; ring.
Qed.
(** For finite log weights of shape (N, D, K) and uniform draws in [0, 1), every row of the result of
    SIMPLE holds the number one at one position and the number zero at all others.  The position is
    a maximum of the log weights in mpe mode, and of the log weights plus the noise otherwise. *)
Theorem C25_straight_through : forall (u : list nat -> R) (mpe : bool) (lw : tensor num) N D K,
  (0 < K)%nat -> shape lw = [N; D; K] -> (forall n d k, (n < N)%nat -> (d < D)%nat -> (k < K)%nat -> 0 <= u [n; d; k] < 1) ->
  (forall n d k, (n < N)%nat -> (d < D)%nat -> (k < K)%nat -> isfin (get lw [n; d; k]) = true) ->
  exists oh, SIMPLE u mpe lw 2 = Ok oh /\ shape oh = [N; D; K] /\
    forall n d, (n < N)%nat -> (d < D)%nat -> exists i, (i < K)%nat /\
      (forall k, (k < K)%nat -> get oh [n; d; k] = if (k =? i)%nat then Fin 1 else Fin 0) /\
      forall k, (k < K)%nat ->
        toR (get lw [n; d; k]) + (if mpe then 0 else rgumbel (u [n; d; k])) <=
        toR (get lw [n; d; i]) + (if mpe then 0 else rgumbel (u [n; d; i])).
Proof.
  intros u mpe lw N D K HK Sl Hu Hf. destruct (simple_argmax u mpe lw N D K HK Sl Hu Hf) as (oh & E & So & G). exists oh. split; auto. split; auto. intros n d Hn Hd.
  set (f := fun k => toR (get lw [n; d; k]) + (if mpe then 0 else rgumbel (u [n; d; k]))). exists (nargmax K (fun k => Fin (f k))).
  split; [apply nargmax_lt; auto|]. split; [intros k Hk; apply G; auto|]. intros k Hk. apply (nargmax_max K (fun k => Fin (f k)) f); auto.
Qed.
Print Assumptions C25_straight_through.
Example C25_straight_through_ex :
  let lw : tensor num := mkT [1; 1; 3]%nat (fun idx => Fin (- INR (nth 2 idx 0%nat))) in
  exists oh, SIMPLE (fun _ => 1 / 2) true lw 2 = Ok oh /\
    get oh [0; 0; 0]%nat = Fin 1 /\ get oh [0; 0; 1]%nat = Fin 0 /\ get oh [0; 0; 2]%nat = Fin 0.
Proof.
  intros lw. destruct (C25_straight_through (fun _ => 1 / 2) true lw 1 1 3) as (oh & E & _ & G); auto; try lia; try (intros; lra).
  exists oh. split; auto. destruct (G 0%nat 0%nat) as (i & Hi & G1 & G2); try lia.
  assert (i = 0)%nat. { specialize (G2 0%nat ltac:(lia)). cbn [get lw nth toR] in G2. destruct i as [|i]; auto. rewrite S_INR in G2. pose proof (pos_INR i). simpl INR in G2. lra. }
  subst i. repeat split; rewrite G1 by lia; reflexivity.
Qed.

(** * Selection by one-hot rows *)
(** For tensors of any rank with finite entries, index_one_hot along [d] reads the entry that the plain
    index [k] selects. *)
Theorem C25_index_one_hot : forall (t oh : tensor num) d (k : list nat -> nat),
  shape oh = shape t -> (d < length (shape t))%nat ->
  (forall idx, inb (remove_nth d (shape t)) idx -> (k idx < nth d (shape t) 0)%nat /\
     forall j, (j < nth d (shape t) 0)%nat ->
       get oh (insert_nth d j idx) = (if (j =? k idx)%nat then Fin 1 else Fin 0) /\
       isfin (get t (insert_nth d j idx)) = true) ->
  exists y, index_one_hot d t oh = Ok y /\ shape y = remove_nth d (shape t) /\
    forall idx, inb (shape y) idx -> get y idx = get t (insert_nth d (k idx) idx).
Proof.
  intros t oh d k Hs Hd H. unfold index_one_hot, size, dim. rewrite Hs, !Nat.eqb_refl. cbn [assert bind].
  destruct (bop_same nmul t oh (eq_sym Hs)) as (p & Ep & Sp & Gp). unfold bmul. rewrite Ep. cbn [bind].
  exists (tsum d p). split; auto. unfold tsum, reduce. cbn [shape get]. rewrite Sp. split; auto. intros idx Hi.
  destruct (H idx Hi) as [Hk Hj]. unfold size. rewrite Sp.
  assert (Hin: forall j, (j < nth d (shape t) 0)%nat -> inb (shape t) (insert_nth d j idx)).
  { clear - Hd Hi. revert d idx Hd Hi. generalize (shape t) as s. induction s as [|a s IH]; intros d idx Hd Hi j Hj; [simpl in Hd; lia|].
    destruct d as [|d]; cbn [insert_nth remove_nth nth inb] in *; auto. destruct idx as [|i idx]; [contradiction|]. destruct Hi as [Hi1 Hi2].
    cbn [inb]. split; auto. apply IH; auto. cbn [length] in Hd. lia. }
  rewrite (nsum_ext _ _ (fun j => nmul (get t (insert_nth d j idx)) (hot j (k idx)))).
  - rewrite (nsum_hot _ (fun j => get t (insert_nth d j idx))); auto. intros j Hjn. apply Hj; auto.
  - intros j Hjn. rewrite Gp by auto. destruct (Hj j Hjn) as [-> _]. unfold hot. destruct (j =? k idx)%nat; reflexivity.
Qed.
Print Assumptions C25_index_one_hot.
Example C25_index_one_hot_ex :
  let t : tensor num := mkT [2; 3; 2]%nat (fun idx => Fin (INR (nth 1 idx 0%nat + 10 * nth 0 idx 0%nat))) in
  let oh : tensor num := mkT [2; 3; 2]%nat (fun idx => if (nth 1 idx 0 =? nth 0 idx 0 + 1)%nat then Fin 1 else Fin 0) in
  exists y, index_one_hot 1 t oh = Ok y /\ get y [0; 1]%nat = Fin (INR 1) /\ get y [1; 0]%nat = Fin (INR 12).
Proof.
  intros t oh. destruct (C25_index_one_hot t oh 1 (fun idx => (nth 0 idx 0 + 1)%nat)) as (y & E & Sy & G); auto; [simpl; lia| |].
  - intros idx Hi. cbn [t shape remove_nth] in Hi. destruct idx as [|i [|j [|]]]; simpl in Hi; try tauto.
    cbn [nth t shape]. split; [lia|]. intros j' Hj'. cbn [insert_nth get oh nth t]. split; reflexivity.
  - exists y. split; auto. rewrite !G by (rewrite Sy; simpl; lia). cbn [insert_nth nth get t]. split; reflexivity.
Qed.

(** An infinite entry that is not selected turns the result into NaN: gathering returns a finite number,
    the one-hot product does not.  Logits of minus infinity are reachable, because torch.rand may return 0. *)
Theorem C25_infinite_refuted : exists (t oh : tensor num),
  shape t = [2]%nat /\ shape oh = [2]%nat /\ get oh [0]%nat = Fin 1 /\ get oh [1]%nat = Fin 0 /\ get t [0]%nat = Fin 0 /\
  exists y, index_one_hot 0 t oh = Ok y /\ get y [] = NaN.
Proof.
  exists (mkT [2]%nat (fun idx => if (nth 0 idx 0 =? 0)%nat then Fin 0 else NInf)), (mkT [2]%nat (fun idx => if (nth 0 idx 0 =? 0)%nat then Fin 1 else Fin 0)).
  set (t := mkT _ _). set (oh := mkT _ _). repeat (split; [reflexivity|]).
  destruct (bop_same nmul t oh eq_refl) as (p & Ep & Sp & Gp). unfold index_one_hot. change (size t 0) with 2%nat. change (size oh 0) with 2%nat.
  change (dim t) with 1%nat. change (dim oh) with 1%nat. cbn [Nat.eqb assert bind]. unfold bmul. rewrite Ep. cbn [bind]. eexists. split; [reflexivity|].
  unfold tsum, reduce, size. rewrite Sp. cbn [get shape t nth insert_nth]. unfold nsum. cbn [seq fold_left fold_right map insert_nth].
  rewrite !Gp by (simpl; lia). cbn [t oh get nth Nat.eqb nmul nadd]. destruct (Rlt_dec 0 0); [lra|]. reflexivity.
Qed.
Print Assumptions C25_infinite_refuted.

(** * Sampling from a network *)
Lemma accepted_mixing {V} g o (E : einet V) : accepted g o E -> forall m, e_mixing E = Some m -> nrep m = 1%nat.
Proof.
  intros [Hc Ho Hb] m Em.
  assert (B: build_mixing g o = Ok (e_mixing E)).
  { unfold build in Hb. apply bind_ok in Hb as ([] & _ & H). destruct (g_struct g); [| |discriminate].
    - unfold build_top_down in H. do 3 (apply bind_ok in H as (? & _ & H)). apply bind_ok in H as (leaf & _ & H). apply bind_ok in H as (mm & Hm & H).
      apply bind_ok in H as (r & _ & H). injection H as <-. exact Hm.
    - unfold build_bottom_up in H. do 6 (apply bind_ok in H as (? & _ & H)). apply bind_ok in H as (mm & Hm & H).
      apply bind_ok in H as (r & _ & H). injection H as <-. exact Hm. }
  unfold build_mixing in B. destruct (1 <? nval (g_R g))%nat; [|rewrite Em in B; discriminate].
  apply bind_ok in B as (mm & Hm & B). apply new_layer_inv in Hm. rewrite Em in B. injection B as <-. rewrite Hm. reflexivity.
Qed.

(** [val] gives the float that represents a leaf value, [us] the uniform draws of one call.
    A result of differentiable sampling holds, entry by entry, the numbers of a possible result of index
    sampling; in mpe mode both are single tensors.  Class None.  Missing: given classes, for which
    the claim is false ([C25_class_index_refuted], [C25_class_list_refuted]), and equality of the
    distributions, because the density of torch.rand is not modelled. *)
Theorem C25_sample_follows_partial : forall V (val : V -> R) g o (E : einet V) us n mpe mpel T (supp : list nat -> V -> Prop) r,
  accepted g o E -> lf_ctx (leafE E) = true -> (0 < n)%nat -> T <> 0 ->
  (mpe || mpel = true -> lf_mode (leafE E) <> None) ->
  outcome supp (dsample val us E (mkArgs (Some n) CNone None mpe mpel T None)) r ->
  exists t t', r = Ok t /\ outcome supp (sample E (mkArgs (Some n) CNone None mpe mpel T None)) (Ok t') /\
    shape t = shape t' /\
    (forall idx, inb (shape t) idx -> get t idx = match get t' idx with Some v => Fin (val v) | None => NaN end) /\
    (mpe = true -> dsample val us E (mkArgs (Some n) CNone None mpe mpel T None) = Ret t /\
                   sample E (mkArgs (Some n) CNone None mpe mpel T None) = Ret t').
Proof.
  intros V val g o E us n mpe mpel T supp r HA Hctx Hn HT Hm Ho. pose proof (accepted_ok g o E HA) as HE.
  destruct (dsample_follows val E HE (accepted_mixing g o E HA) supp us (mkArgs (Some n) CNone None mpe mpel T None) r)
    as (t & t' & -> & Ot & [Hs Hg] & Hmpe); auto.
  - unfold check_args. cbn. destruct (e_K E =? 1)%nat; reflexivity.
  - discriminate.
  - exists t, t'. auto.
Qed.
Print Assumptions C25_sample_follows_partial.

(** The same for evidence. *)
Theorem C25_evidence_follows_partial : forall V (val : V -> R) g o (E : einet V) us N e ms mpe mpel T (supp : list nat -> V -> Prop) r,
  accepted g o E -> lf_ctx (leafE E) = true -> evidence E N e ms -> (0 < N)%nat -> T <> 0 ->
  (mpe || mpel = true -> lf_mode (leafE E) <> None) ->
  outcome supp (dsample val us E (mkArgs None CNone (Some e) mpe mpel T ms)) r ->
  exists t t', r = Ok t /\ outcome supp (sample E (mkArgs None CNone (Some e) mpe mpel T ms)) (Ok t') /\
    shape t = shape t' /\
    (forall idx, inb (shape t) idx -> get t idx = match get t' idx with Some v => Fin (val v) | None => NaN end) /\
    (mpe = true -> dsample val us E (mkArgs None CNone (Some e) mpe mpel T ms) = Ret t /\
                   sample E (mkArgs None CNone (Some e) mpe mpel T ms) = Ret t').
Proof.
  intros V val g o E us N e ms mpe mpel T supp r HA Hctx He HN HT Hm Ho. pose proof (accepted_ok g o E HA) as HE.
  set (a := mkArgs None CNone (Some e) mpe mpel T ms) in *. assert (EN: num_samples a = N) by (cbn; apply (batch_size E); apply He).
  destruct (dsample_follows val E HE (accepted_mixing g o E HA) supp us a r) as (t & t' & -> & Ot & [Hs Hg] & Hmpe); auto.
  - unfold check_args. cbn. destruct (e_K E =? 1)%nat; reflexivity.
  - rewrite EN. auto.
  - intros e0 E0. injection E0 as <-. rewrite EN. apply evidence_input; auto.
  - exists t, t'. auto.
Qed.
Print Assumptions C25_evidence_follows_partial.

(** Differentiable sampling has an outcome whenever each leaf distribution can produce some value. *)
Lemma dsample_has {V} (val : V -> R) us (E : einet V) a (supp : list nat -> V -> Prop) v0 : (forall key, supp key v0) ->
  exists r, outcome supp (dsample val us E a) r.
Proof.
  intros Hv. unfold dsample. destruct (dsample_ctx us E a) as [c|e]; cbn [lift mbind]; [|eexists; constructor].
  unfold dleaf_sample. destruct (guard _ _) as [[]|e]; cbn [lift mbind]; [|eexists; constructor].
  assert (A: exists r, outcome supp (leaf_mode_or_draw (leaf_of (e_leaf E)) (d_n c) (a_mpe a || a_mpel a)) r).
  { unfold leaf_mode_or_draw. destruct (_ || _).
    - destruct (lf_mode _); [|eexists; constructor]. destruct (repeat_t _ _); eexists; constructor.
    - set (s := [_; _; _; _; _; _]). destruct (draw_fun_intro supp (lf_zero (leaf_of (e_leaf E))) s (fun idx => LeafD (skipn 2 idx) (fun v => Ret v)) (fun _ => v0)) as (g' & Og & _).
      { intros idx _. econstructor; [apply Hv|constructor]. }
      eexists. eapply outcome_bind_intro; [|constructor]. unfold draw_tensor. eapply outcome_bind_intro; [exact Og|constructor]. }
  assert (B: forall A B (m : M V A) (f : A -> M V B), (exists r, outcome supp m r) -> (forall x, exists r, outcome supp (f x) r) -> exists r, outcome supp (mbind m f) r).
  { clear. intros A B m f (r & Hm) Hf. induction Hm as [x|e|w k i r Hi _ (r' & IH)|w k Hw|key k v r Hk _ (r' & IH)].
    - apply Hf.
    - eexists; constructor.
    - exists r'. eapply out_cat; eauto.
    - eexists. apply out_empty. auto.
    - exists r'. econstructor; eauto. }
  apply B; [|intros s; destruct (a_ev a) as [e|]; [destruct (dmerge_evidence _ _ _ _); eexists; constructor|eexists; constructor]].
  apply B; [exact A|]. intros s. destruct (dleaf_index _ _ _); eexists; constructor.
Qed.
Example C25_sample_ex : exists g o (E : einet nat), accepted g o E /\ e_K E = 3%nat /\ e_R E = 2%nat /\
  let a := mkArgs (Some 2%nat) CNone None false false 1 None in
  let supp := fun (_ : list nat) v => (v < 2)%nat in
  (exists r, outcome supp (dsample INR (fun _ _ => 1 / 2) E a) r) /\
  forall r, outcome supp (dsample INR (fun _ _ => 1 / 2) E a) r -> exists t t', r = Ok t /\ outcome supp (sample E a) (Ok t').
Proof.
  destruct ex_td as (E & A & HF & HC & HR & HK & D & X & _). exists ex_td_g, ex_td_o, E. repeat (split; [assumption|]). cbv zeta. split.
  - apply (dsample_has INR _ E _ _ 0%nat). intros; lia.
  - intros r Hr. destruct (C25_sample_follows_partial nat INR ex_td_g ex_td_o E (fun _ _ => 1 / 2) 2 false false 1 (fun _ v => (v < 2)%nat) r A X) as (t & t' & H1 & H2 & _); eauto; try lia; try lra; discriminate.
Qed.

(** * Given classes *)
(** The one-hot class has shape (n, K, 1) instead of (n, 1, K). *)
Definition nonroot (l : layer) : bool := match l with LRoot _ => false | _ => true end.
Lemma dsample_with_wide fout so nr sel cond draw ca u c n X : shape (d_out c) = [n; X; 1]%nat -> X <> fout -> d_n c = n ->
  dsample_with fout so nr sel cond draw ca u c = Err AssertionError.
Proof.
  intros Sc HX Hn. unfold dsample_with, dcheck, size. rewrite Sc, Hn. cbn [nth]. rewrite Nat.eqb_refl. cbn [assert bind].
  destruct (Nat.eqb_spec X fout); [congruence|]. reflexivity.
Qed.
Lemma dsample_layers_wide Rn us n : forall ls cas j c D S D' S' X, layers_ok Rn ls D S D' S' -> (0 < D)%nat -> (D' < X)%nat ->
  shape (d_out c) = [n; X; 1]%nat -> d_n c = n -> length cas = length ls ->
  dsample_layers us (combine ls cas) j c = Err AssertionError \/
  (existsb nonroot ls = false /\ exists c' X', dsample_layers us (combine ls cas) j c = Ok c' /\ shape (d_out c') = [n; X'; 1]%nat /\ d_n c' = n /\ (D < X')%nat).
Proof.
  induction ls as [|l ls IH]; intros cas j c D S D' S' X HL HD HX Sc Hn Hlen.
  - cbn [layers_ok] in HL. destruct HL as [<- _]. right. cbn. split; auto. exists c, X. auto.
  - destruct cas as [|ca cas]; [discriminate|]. cbn [layers_ok] in HL. destruct HL as [Hl HL]. cbn [combine dsample_layers].
    assert (HD': (0 < layer_dout l)%nat).
    { destruct l as [L|L|L|L|D0]; cbn [layer_ok layer_dout] in *.
      - destruct Hl as [(_ & _ & _ & H2 & _) _]. unfold einsum_features_out. apply Nat.div_str_pos. lia.
      - destruct Hl as [(_ & H2 & _) _]. unfold linsum_features_out. apply Nat.div_str_pos. lia.
      - destruct Hl as [(_ & H2 & _) _]. unfold linsum_features_out. apply Nat.div_str_pos. lia.
      - destruct Hl as [_ (-> & _)]. auto.
      - lia. }
    destruct (IH cas (Datatypes.S j) c _ _ _ _ X HL HD' HX Sc Hn) as [->|(Hr & c' & X' & E1 & E2 & E3 & E4)]; [cbn in Hlen; lia|left; reflexivity|].
    rewrite E1. cbn [bind]. destruct l as [L|L|L|L|D0]; cbn [layer_dout] in E4;
      [left; cbn [dlayer_sample]; eapply dsample_with_wide; eauto; lia..|].
    right. cbn [existsb nonroot]. split; auto. cbn [dlayer_sample]. unfold drootprod_sample, repeat_t, dim. rewrite E2. cbn [length repeat set_nth].
    rewrite Nat.eqb_refl. cbn [bind]. exists (dset_out c' (mkT (map2 Nat.mul [1; D0; 1]%nat [n; X'; 1]%nat) (fun idx => get (d_out c') (map2 Nat.modulo idx [n; X'; 1]%nat)))), (D0 * X')%nat.
    split; [reflexivity|]. unfold dset_out. cbn [d_out d_n shape map2]. cbn [layer_ok] in Hl. subst D0.
    split; [f_equal; lia|]. split; auto. nia.
Qed.
Lemma new_intermediate_nonroot t lg nf sin sout nrep drop l : new_intermediate t lg nf sin sout nrep drop = Ok l -> nonroot l = true.
Proof. destruct t; cbn [new_intermediate]; intros H; try discriminate; apply bind_ok in H as (L & _ & H); injection H as <-; reflexivity. Qed.
Lemma accepted_nonroot {V} g o (E : einet V) : accepted g o E -> existsb nonroot (e_layers E) = true.
Proof.
  intros [Hc Ho H]. unfold build in H. apply bind_ok in H as ([] & _ & H). destruct (g_struct g); [| |discriminate].
  - unfold build_top_down in H. apply bind_ok in H as (ls0 & H0 & H). apply bind_ok in H as (ls & H1 & H). apply bind_ok in H as (l & H2 & H).
    apply bind_ok in H as (leaf & _ & H). apply bind_ok in H as (m & _ & H). apply bind_ok in H as (r & _ & H). injection H as <-. cbn [e_layers].
    apply existsb_exists. destruct (rev ls) as [|l' lt] eqn:El; [discriminate|]. injection H2 as ->. exists l. split; [left; auto|].
    assert (Hin: In l ls) by (apply in_rev; rewrite El; left; auto).
    assert (A: forall l, In l ls0 -> nonroot l = true).
    { clear - H0. revert ls0 H0. generalize (seq 1 (nval (g_depth g))) as xs. induction xs as [|x xs IH]; cbn [mapM]; intros ls0 H l Hin.
      - injection H as <-. destruct Hin.
      - apply bind_ok in H as (y & Hy & H). apply bind_ok in H as (ys & Hys & H). injection H as <-. destruct Hin as [<-|Hin]; [|eapply IH; eauto].
        unfold top_layer in Hy. eapply new_intermediate_nonroot; eauto. }
    destruct (zval (g_depth g) =? 0)%Z.
    + apply bind_ok in H1 as (L & _ & H1). injection H1 as <-. apply in_app_or in Hin as [Hin|[<-|[]]]; auto.
    + injection H1 as <-. auto.
  - unfold build_bottom_up in H. apply bind_ok in H as (ls & _ & H). do 3 (apply bind_ok in H as (? & _ & H)). apply bind_ok in H as (rs & _ & H). do 3 (apply bind_ok in H as (? & _ & H)).
    injection H as <-. cbn [e_layers]. rewrite existsb_app. cbn [existsb nonroot orb]. apply orb_true_r.
Qed.

(** With more than one class, an integer class makes every differentiable call raise, although index sampling
    accepts it (C08). *)
Theorem C25_class_index_refuted : forall V (val : V -> R) g o (E : einet V) us n y mpe mpel T,
  accepted g o E -> (1 < e_K E)%nat -> (y < e_K E)%nat ->
  dsample val us E (mkArgs (Some n) (CInt y) None mpe mpel T None) = Fail AssertionError.
Proof.
  intros V val g o E us n y mpe mpel T HA HK Hy. pose proof (accepted_ok g o E HA) as HE.
  set (a := mkArgs (Some n) (CInt y) None mpe mpel T None).
  assert (A: dsample_ctx us E a = Err AssertionError); [|unfold dsample; rewrite A; reflexivity].
  unfold dsample_ctx, check_args. cbn [a a_class class_none a_ev is_none a_n orb]. cbn [assert bind].
  destruct (Nat.eqb_spec (e_K E) 1); [lia|]. cbn [bind]. unfold ev_caches. cbn [a_ev bind].
  unfold dclass_step. destruct (Nat.ltb_spec 1 (e_K E)); [|lia]. change (num_samples a) with n. cbn [a a_class a_ev bind].
  unfold scatter_class. rewrite repeat_length, Nat.leb_refl. cbn [andb].
  assert (Fb: forallb (fun y0 : nat => (y0 <? e_K E)%nat) (repeat y n) = true).
  { apply forallb_forall. intros z Hz. apply repeat_spec in Hz. subst z. apply Nat.ltb_lt. exact Hy. }
  rewrite Fb. cbn [bind]. set (c := dset_out (dinit_ctx _) _).
  assert (Sc: shape (d_out c) = [n; e_K E; 1]%nat) by reflexivity. assert (Hn: d_n c = n) by reflexivity.
  unfold dmixing_step. destruct (Nat.ltb_spec 1 (e_R E)) as [HR|HR].
  - destruct (eo_mix E HE HR) as (m & Em & (_ & Hnf & _) & _). rewrite Em. cbn [attr bind]. unfold dmixing_sample. erewrite dsample_with_wide; eauto. lia.
  - cbn [bind]. destruct (dsample_layers_wide (e_R E) us n (e_layers E) (ca_layers (no_caches E)) 0 c _ _ _ _ (e_K E) (eo_layers E HE)) as [->|(Hf & _)]; auto.
    + pose proof (eo_ll E HE) as Hll. unfold leaf_out, leaf_layer_ok in *. 
      destruct (e_leaf E) as [lf Fo sc|lf Fo pl pinv|lf]; destruct (e_perm E); try contradiction; [|tauto|apply (eo_F E HE)].
      destruct Hll as (_ & Hg & _). specialize (Hg 0%nat 0%nat (eo_R E HE) (eo_F E HE)). lia.
    + unfold no_caches. cbn [ca_layers]. rewrite map_length. reflexivity.
    + rewrite (accepted_nonroot g o E HA) in Hf. discriminate.
Qed.
Print Assumptions C25_class_index_refuted.
(** A list of classes raises for every list and every number of samples: the branch calls a method that does not exist. *)
Theorem C25_class_list_refuted : forall V (val : V -> R) (E : einet V) us n cs mpe mpel T,
  (1 < e_K E)%nat -> 
  dsample val us E (mkArgs n (CList cs) None mpe mpel T None) = Fail AttributeErr \/
  dsample val us E (mkArgs n (CList cs) None mpe mpel T None) = Fail RuntimeErr.
Proof.
  intros V val E us n cs mpe mpel T HK.
  set (a := mkArgs n (CList cs) None mpe mpel T None).
  assert (A: exists x, (x = AttributeErr \/ x = RuntimeErr) /\ dsample_ctx us E a = Err x);
    [|destruct A as (x & [->| ->] & A); unfold dsample; rewrite A; auto].
  unfold dsample_ctx, check_args. cbn [a a_class class_none a_ev is_none a_n orb]. rewrite orb_true_r. cbn [assert bind].
  destruct (Nat.eqb_spec (e_K E) 1); [lia|]. cbn [bind]. unfold ev_caches. cbn [a_ev bind].
  unfold dclass_step. destruct (Nat.ltb_spec 1 (e_K E)); [|lia]. cbn [a a_ev bind a_class].
  unfold scatter_class. destruct (_ && _)%bool; cbn [bind]; eauto.
Qed.
Print Assumptions C25_class_list_refuted.

Example C25_class_ex : exists g o (E : einet nat), accepted g o E /\ e_K E = 3%nat /\
  dsample INR (fun _ _ => 1 / 2) E (mkArgs (Some 2%nat) (CInt 1) None false false 1 None) = Fail AssertionError /\
  dsample INR (fun _ _ => 1 / 2) E (mkArgs (Some 2%nat) (CList [0; 1]%nat) None false false 1 None) = Fail AttributeErr.
Proof.
  destruct ex_td as (E & A & HF & HC & HR & HK & D & X & _). exists ex_td_g, ex_td_o, E. repeat (split; [assumption|]). split.
  - apply (C25_class_index_refuted nat INR ex_td_g ex_td_o); auto; rewrite HK; lia.
  - unfold dsample, dsample_ctx, check_args, ev_caches, dclass_step, num_samples. cbn [a_class class_none a_ev a_n is_none orb assert bind]. rewrite HK. reflexivity.
Qed.
