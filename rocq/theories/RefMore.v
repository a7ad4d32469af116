(** Lists of class indices; which leaf components forward pass and sampling use. *)
From Coq Require Import List Arith Lia Bool ZArith Reals Lra Permutation.
Import ListNotations.
From Verif Require Import Base RSum Num Tensor Prob Layers Circuit Net RefFwd RefSample RefLaw Leaf Perm RefLeaf RefLeafS TypeChecks Einet RefNet RefEinet RefEinetS RefScopes Build RefBuild Spec RefSpec.
Local Open Scope R_scope.
Local Arguments Nat.div : simpl never.
Local Arguments Nat.modulo : simpl never.
Local Arguments Nat.sub : simpl never.
Local Arguments Nat.mul : simpl never.
Local Arguments Nat.add : simpl never.

(** * A list of classes whose length is not the number of samples *)
Definition is_root (l : layer) : bool := match l with LRoot _ => true | _ => false end.
Lemma new_intermediate_noroot t lg nf' si so nr dr l : new_intermediate t lg nf' si so nr dr = Ok l -> is_root l = false.
Proof. unfold new_intermediate. destruct t; try discriminate; intros H; apply bind_ok in H as (L & _ & H); inversion H; reflexivity. Qed.
Lemma mapM_In {A B} (f : A -> res B) l : forall ys y, mapM f l = Ok ys -> In y ys -> exists x, In x l /\ f x = Ok y.
Proof.
  induction l as [|x l IH]; cbn [mapM]; intros ys y H Hy.
  - inversion H; subst. destruct Hy.
  - apply bind_ok in H as (z & Hz & H). apply bind_ok in H as (zs & Hzs & H). inversion H; subst ys.
    destruct Hy as [->|Hy]; [exists x; simpl; auto|]. destruct (IH _ _ Hzs Hy) as (x' & H1 & H2). exists x'. simpl; auto.
Qed.
Lemma build_noroot {V} g (o : oracle V) E : build g o = Ok E -> exists l, In l (e_layers E) /\ is_root l = false.
Proof.
  intros H. unfold build in H. apply bind_ok in H as ([] & _ & H). destruct (g_struct g); [| |discriminate].
  - unfold build_top_down in H. apply bind_ok in H as (ls0 & H0 & H). apply bind_ok in H as (ls & H1 & H).
    apply bind_ok in H as (l & H2 & H). apply bind_ok in H as (lf & _ & H). apply bind_ok in H as (m & _ & H).
    apply bind_ok in H as (r & _ & H). inversion H. cbn [e_layers].
    assert (Hin: In l ls) by (apply in_rev; destruct (rev ls); [discriminate|]; inversion H2; simpl; auto).
    exists l. split; [apply in_rev; rewrite rev_involutive; auto|].
    assert (G: forall x, In x ls0 -> is_root x = false).
    { intros x Hx. destruct (mapM_In _ _ _ _ H0 Hx) as (i & _ & E1). unfold top_layer in E1. eapply new_intermediate_noroot; eauto. }
    destruct (zval (g_depth g) =? 0)%Z.
    + apply bind_ok in H1 as (L & _ & H1). inversion H1; subst ls. apply in_app_or in Hin as [Hin|[<-|[]]]; [auto|reflexivity].
    + inversion H1; subst ls. auto.
  - unfold build_bottom_up in H. apply bind_ok in H as (ls & H0 & H). apply bind_ok in H as (ls1 & _ & H). apply bind_ok in H as ([] & _ & H).
    apply bind_ok in H as (l & H2 & H). apply bind_ok in H as (rs & H3 & H). apply bind_ok in H as (lf0 & H3' & H).
    apply bind_ok in H as (m & H4 & H). apply bind_ok in H as (rr & H5 & H). inversion H. cbn [e_layers].
    exists (LSum rs). split; [apply in_or_app; simpl; auto|reflexivity].
Qed.

Section ClassList.
Context {V : Type}.
(** Indices for a number of rows other than the context's. *)
Definition bad_ctx (c : sctx) : Prop := exists m d, shape (c_out c) = [m; d] /\ m <> c_n c.
Lemma check_bad c D : bad_ctx c -> check_context D c = Err AssertionError.
Proof. intros (m & d & E & H). unfold check_context, size. rewrite E. cbn [nth]. apply Nat.eqb_neq in H. rewrite H. reflexivity. Qed.
Lemma sample_with_bad fo sel cond (dr : sctx -> tensor num -> M V (tensor nat)) ca c : bad_ctx c -> sample_with fo sel cond dr ca c = Fail AssertionError.
Proof. intros H. unfold sample_with. rewrite (check_bad c fo H). reflexivity. Qed.
Lemma layer_bad l ca c : bad_ctx c ->
  if is_root l then exists c', layer_sample (V := V) l ca c = Ret c' /\ bad_ctx c' else layer_sample (V := V) l ca c = Fail AssertionError.
Proof.
  intros H. destruct l as [L|L|L|L|D]; cbn [is_root layer_sample]; try (apply sample_with_bad; exact H).
  destruct H as (m & d & E & H). unfold rootprod_sample, repeat_t, dim. rewrite E. cbn [length repeat set_nth Nat.eqb lift mbind].
  eexists. split; [reflexivity|]. unfold bad_ctx. cbn [set_out c_out c_n shape map2]. exists (1 * m)%nat, (D * d)%nat. split; auto. lia.
Qed.
Lemma sample_layers_bad ls : forall cs c, bad_ctx c -> length cs = length ls -> 
  (sample_layers (V := V) (combine ls cs) c = Fail AssertionError) \/
  ((exists c', sample_layers (V := V) (combine ls cs) c = Ret c' /\ bad_ctx c') /\ forall l, In l ls -> is_root l = true).
Proof.
  induction ls as [|l ls IH]; intros cs c H Hlen; cbn [combine sample_layers].
  - right. split; [exists c; auto|]. intros l [].
  - destruct cs as [|ca cs]; [discriminate|]. cbn [combine sample_layers]. destruct (IH cs c H ltac:(simpl in Hlen; lia)) as [E|[(c' & E & H') A]].
    + left. rewrite E. reflexivity.
    + rewrite E. cbn [mbind]. pose proof (layer_bad l ca c' H') as G. destruct (is_root l) eqn:Er.
      * right. split; [exact G|]. intros l' [<-|Hl]; auto.
      * left. exact G.
Qed.
Theorem class_list_fails g (o : oracle V) E a cs : build g o = Ok E -> einet_ok E -> (1 < e_K E)%nat -> a_ev a = None -> a_class a = CList cs ->
  length cs <> num_samples a -> sample E a = Fail AssertionError.
Proof.
  intros Hb HE HK Hev Hc Hl.
  assert (Hch: check_args E a = Ok tt).
  { unfold check_args. rewrite Hev, Hc. cbn. rewrite orb_true_r. cbn. destruct (Nat.eqb_spec (e_K E) 1); [lia|auto]. }
  assert (Ec: ev_caches E a = Ok (no_caches E)) by (unfold ev_caches; rewrite Hev; auto).
  unfold sample, sample_ctx. rewrite Hch, Ec. cbn [lift mbind]. unfold class_step. destruct (Nat.ltb_spec 1 (e_K E)); [|lia].
  rewrite Hc. cbn [mbind fst snd]. set (c := set_out (init_ctx a) _).
  assert (Bc: bad_ctx c) by (exists (length cs), 1%nat; split; [reflexivity|exact Hl]).
  unfold mixing_step. destruct (Nat.ltb_spec 1 (e_R E)) as [HR|HR].
  - destruct (eo_mix E HE HR) as (m & -> & _). cbn [attr lift mbind]. unfold mixing_sample. rewrite sample_with_bad by exact Bc. reflexivity.
  - cbn [mbind]. cbn [no_caches ca_layers].
    destruct (sample_layers_bad (e_layers E) (map (fun _ => None) (e_layers E)) c Bc (map_length _ _)) as [->|[_ A]]; [reflexivity|].
    destruct (build_noroot g o E Hb) as (l & Hin & Hn). rewrite (A l Hin) in Hn. discriminate.
Qed.
End ClassList.

(** * Groups of leaf layers *)
Lemma map_nodup_in {A B} (f : A -> B) l : (forall a b, In a l -> In b l -> f a = f b -> a = b) -> NoDup l -> NoDup (map f l).
Proof.
  induction l as [|x l IH]; intros Hi Hn; cbn [map]; constructor; inversion Hn; subst.
  - intros H. apply in_map_iff in H as (y & E & Hy). assert (y = x) by (apply Hi; simpl; auto). subst. auto.
  - apply IH; auto. intros a b Ha Hb. apply Hi; simpl; auto.
Qed.
Lemma simple_card_ge2 F Fo : (1 < Fo)%nat -> (Fo < F)%nat -> (2 <= simple_card F Fo)%nat.
Proof. intros. unfold simple_card, ceil_div. apply Nat.div_le_lower_bound; lia. Qed.
(** A feature at position 1 of the permutation, if it is not a dummy, is put in group 0 by the forward
    pass and sampled from group 1; likewise some feature for every permutation. *)
Lemma simple_groups_same F Fo pl f : (0 < Fo)%nat -> (Fo = 1 \/ Fo = F)%nat -> is_perm pl (F + simple_dummy F Fo) -> (f < F)%nat ->
  simple_sgrp F Fo pl f = simple_grp F Fo pl f.
Proof.
  intros H0 H Hp Hf. unfold simple_sgrp, simple_grp. destruct (argsort_nth _ _ f Hp) as [L _]; [lia|]. set (p := nth f (argsort pl) 0%nat) in *.
  assert (T := simple_total F Fo H0). destruct H as [->| ->].
  - rewrite Nat.mod_1_r. symmetry. apply Nat.div_small. lia.
  - assert (C1: simple_card F F = 1%nat).
    { unfold simple_card, ceil_div. replace (F + (F - 1))%nat with (1 * F + (F - 1))%nat by lia. rewrite Nat.div_add_l by lia. rewrite (Nat.div_small (F - 1)) by lia. lia. }
    rewrite C1 in *. rewrite Nat.div_1_r. apply Nat.mod_small. lia.
Qed.
(** With more than one group and more features than groups, some feature is always sampled from the
    component of another group, whatever the permutation. *)
Lemma simple_groups_differ F Fo pl : (1 < Fo)%nat -> (Fo < F)%nat -> is_perm pl (F + simple_dummy F Fo) ->
  exists f, (f < F)%nat /\ simple_sgrp F Fo pl f <> simple_grp F Fo pl f.
Proof.
  intros H1 H2 Hp. pose proof (simple_card_ge2 F Fo H1 H2) as C. pose proof (simple_total F Fo ltac:(lia)) as T.
  assert (Hd: (simple_dummy F Fo < Fo)%nat).
  { unfold simple_dummy, simple_card, ceil_div. pose proof (Nat.mul_div_le (F + (Fo - 1)) Fo ltac:(lia)). lia. }
  set (cd := simple_card F Fo) in *. set (dm := simple_dummy F Fo) in *.
  set (ok := fun p => (p mod Fo =? p / cd)%nat).
  set (d := fun g => if ok (g * cd)%nat then (g * cd + 1)%nat else (g * cd)%nat).
  assert (Dblk: forall g, (d g / cd = g)%nat).
  { intros g. unfold d. destruct (ok (g * cd)%nat).
    - rewrite Nat.div_add_l by lia. rewrite Nat.div_small by lia. lia.
    - apply Nat.div_mul. lia. }
  assert (Dbad: forall g, ok (d g) = false).
  { intros g. unfold d. destruct (ok (g * cd)%nat) eqn:E; [|exact E]. unfold ok in *. apply Nat.eqb_eq in E. apply Nat.eqb_neq.
    replace ((g * cd + 1) / cd)%nat with ((g * cd) / cd)%nat.
    2:{ rewrite Nat.div_mul by lia. rewrite Nat.div_add_l by lia. rewrite Nat.div_small by lia. lia. }
    rewrite <- E. rewrite Nat.add_mod by lia. rewrite (Nat.mod_small 1 Fo) by lia.
    pose proof (Nat.mod_upper_bound (g * cd) Fo ltac:(lia)) as U. set (m := ((g * cd) mod Fo)%nat) in *.
    destruct (Nat.eq_dec (m + 1) Fo) as [Z|Z].
    - rewrite Z, Nat.mod_same by lia. lia.
    - rewrite Nat.mod_small by lia. lia. }
  assert (Dlt: forall g, (g < Fo)%nat -> (d g < F + dm)%nat).
  { intros g Hg. rewrite T. assert (d g / cd < Fo)%nat by (rewrite Dblk; auto). 
    pose proof (Nat.div_mod (d g) cd ltac:(lia)). pose proof (Nat.mod_upper_bound (d g) cd ltac:(lia)). nia. }
  destruct (existsb (fun g => nth (d g) pl 0 <? F)%nat (seq 0 Fo)) eqn:Ex.
  - apply existsb_exists in Ex as (g & Hg & Hf). apply in_seq in Hg. apply Nat.ltb_lt in Hf. exists (nth (d g) pl 0%nat). split; auto.
    unfold simple_sgrp, simple_grp. rewrite (argsort_left _ _ _ Hp) by (apply Dlt; lia). fold cd. specialize (Dbad g). unfold ok in Dbad.
    apply Nat.eqb_neq in Dbad. exact Dbad.
  - exfalso. assert (All: forall g, (g < Fo)%nat -> (F <= nth (d g) pl 0)%nat).
    { intros g Hg. destruct (Nat.ltb_spec (nth (d g) pl 0%nat) F); [|lia]. exfalso.
      assert (existsb (fun g => nth (d g) pl 0 <? F)%nat (seq 0 Fo) = true); [|congruence].
      apply existsb_exists. exists g. split; [apply in_seq; lia|apply Nat.ltb_lt; auto]. }
    assert (N: NoDup (map (fun g => nth (d g) pl 0%nat) (seq 0 Fo))).
    { apply map_nodup_in; [|apply seq_NoDup]. intros a b Ha Hb E. apply in_seq in Ha, Hb.
      assert (d a = d b) by (eapply is_perm_inj; [exact Hp|apply Dlt; lia|apply Dlt; lia|exact E]).
      rewrite <- (Dblk a), <- (Dblk b), H. reflexivity. }
    assert (I: incl (map (fun g => nth (d g) pl 0%nat) (seq 0 Fo)) (seq F dm)).
    { intros v Hv. apply in_map_iff in Hv as (g & <- & Hg). apply in_seq in Hg. apply in_seq. split; [apply All; lia|].
      apply (is_perm_lt pl _ (d g) Hp). apply Dlt. lia. }
    pose proof (NoDup_incl_length N I) as L. rewrite map_length, !seq_length in L. lia.
Qed.

Section Groups.
Context {V : Type}.
Variable lf : bleaf V.
Lemma simple_forward_groups Fo pl : (0 < Fo)%nat -> (0 < lf_F lf)%nat -> lf_R lf = 1%nat -> is_perm pl (lf_F lf + simple_dummy (lf_F lf) Fo) ->
  forward_groups lf Fo (simple_forward lf Fo (vec pl)) (fun _ => simple_grp (lf_F lf) Fo pl).
Proof.
  intros H1 H2 H3 H4 N t q Hs Hq Ht. destruct (simple_forward_rep lf Fo pl N t q H1 H2 H3 H4 Hs Hq Ht) as (y & Ey & Sy & Gy).
  exists y. split; auto. split; auto. intros n d l r Hn Hd Hl Hr. apply (Gy n d l r Hn Hd Hl Hr).
Qed.
Lemma fact_forward_groups Fo sc grp : scopes_grp sc (lf_F lf) Fo (lf_R lf) grp ->
  forward_groups lf Fo (fact_forward lf Fo sc) (fact_grp (lf_F lf) Fo grp).
Proof.
  intros H N t q Hs Hq Ht. destruct (fact_forward_rep lf Fo sc grp N t q H Hs Hq Ht) as (y & Ey & Sy & Gy).
  exists y. split; auto. split; auto. intros n d l r Hn Hd Hl Hr. apply (Gy n d l r Hn Hd Hl Hr).
Qed.
Lemma simple_sgrp_lt Fo pl f : (0 < Fo)%nat -> (simple_sgrp (lf_F lf) Fo pl f < Fo)%nat.
Proof. intros. apply Nat.mod_upper_bound. lia. Qed.
Lemma simple_sample_groups Fo pl : (0 < Fo)%nat -> lf_ctx lf = true -> is_perm pl (lf_F lf + simple_dummy (lf_F lf) Fo) ->
  sample_groups lf Fo (fun c => simple_sample lf Fo (vec (argsort pl)) c false) (fun _ => simple_sgrp (lf_F lf) Fo pl).
Proof.
  intros H1 H2 H3 N c supp r HN Hn So Sr Go Gr Ho. assert (Hc: cgood c N Fo (lf_L lf) (lf_R lf)) by (repeat split; auto).
  pose proof (simple_routes lf Fo pl c N H1 H3 Hc) as Hk.
  eapply (leaf_draw_outcome lf supp _ c N Fo (fun _ => simple_sgrp (lf_F lf) Fo pl) r Hc); [intros; apply simple_sgrp_lt; auto|exact Hk|].
  unfold simple_sample, base_sample in Ho. rewrite H2 in Ho. cbn [guard lift mbind] in Ho. rewrite Hn in Ho.
  replace (leaf_prog _ _ N false) with (mbind (mbind (leaf_mode_or_draw lf N false) (fun s => lift (leaf_select s None (c_rep c)))) (fun s => lift (simple_index lf Fo (vec (argsort pl)) N (c_out c) s))); auto.
  unfold leaf_prog. rewrite mbind_assoc. apply mbind_ext. intros s. rewrite Hn. destruct (leaf_select s None (c_rep c)); reflexivity.
Qed.
Lemma fact_sample_groups Fo sc grp : lf_ctx lf = true -> scopes_grp sc (lf_F lf) Fo (lf_R lf) grp ->
  sample_groups lf Fo (fun c => fact_sample lf Fo sc c false) grp.
Proof.
  intros H2 H3 N c supp r HN Hn So Sr Go Gr Ho. assert (Hc: cgood c N Fo (lf_L lf) (lf_R lf)) by (repeat split; auto).
  pose proof (fact_routes lf Fo sc grp c N HN H3 Hc) as Hk. pose proof H3 as (_ & Hl & _).
  eapply (leaf_draw_outcome lf supp _ c N Fo grp r Hc Hl Hk).
  unfold fact_sample, base_sample in Ho. rewrite H2 in Ho. cbn [guard lift mbind] in Ho. rewrite Hn in Ho.
  replace (leaf_prog _ _ N false) with (mbind (mbind (leaf_mode_or_draw lf N false) (fun s => lift (leaf_select s None (c_rep c)))) (fun s => lift (fact_index lf Fo sc N (c_out c) (c_rep c) s))); auto.
  unfold leaf_prog. rewrite mbind_assoc. apply mbind_ext. intros s. rewrite Hn. destruct (leaf_select s None (c_rep c)); reflexivity.
Qed.

(** The grouping is determined by the program. *)
Lemma forward_groups_unique Fo fw g1 g2 : (0 < lf_L lf)%nat -> (0 < lf_C lf)%nat -> forward_groups lf Fo fw g1 -> forward_groups lf Fo fw g2 ->
  forall r f, (r < lf_R lf)%nat -> (f < lf_F lf)%nat -> (g1 r f < Fo)%nat -> g2 r f = g1 r f.
Proof.
  intros HL HC H1 H2 r f Hr Hf Hlt.
  set (q := fun (_ c f' _ _ : nat) => if (f' =? f)%nat && (c =? 0)%nat then 2 else 1).
  set (t := mkT [1%nat; lf_C lf; lf_F lf; lf_L lf; lf_R lf] (fun idx => Fin (ln (q (nth 0 idx 0%nat) (nth 1 idx 0%nat) (nth 2 idx 0%nat) (nth 3 idx 0%nat) (nth 4 idx 0%nat))))).
  assert (Q: forall n c f' l r', 0 < q n c f' l r') by (intros; unfold q; destruct (_ && _); lra).
  destruct (H1 1%nat t q eq_refl Q) as (y1 & E1 & _ & G1); [intros; reflexivity|].
  destruct (H2 1%nat t q eq_refl Q) as (y2 & E2 & _ & G2); [intros; reflexivity|].
  assert (y2 = y1) by congruence. subst y2. specialize (G1 0%nat (g1 r f) 0%nat r Nat.lt_0_1 Hlt HL Hr). specialize (G2 0%nat (g1 r f) 0%nat r Nat.lt_0_1 Hlt HL Hr).
  rewrite G1 in G2.
  assert (P: forall g, rprod (lf_F lf) (fun f' => if Nat.eqb (g r f') (g1 r f) then rprod (lf_C lf) (fun c => q 0%nat c f' 0%nat r) else 1) = if Nat.eqb (g r f) (g1 r f) then 2 else 1).
  { intros g. rewrite (rprod_single (lf_F lf) f); auto.
    - destruct (Nat.eqb (g r f) (g1 r f)); auto. rewrite (rprod_single (lf_C lf) 0%nat); auto.
      + unfold q. rewrite !Nat.eqb_refl. reflexivity.
      + intros c _ Hc. unfold q. destruct (Nat.eqb_spec c 0); [congruence|]. rewrite andb_false_r. reflexivity.
    - intros f' _ Hne. destruct (Nat.eqb _ _); auto. transitivity (rprod (lf_C lf) (fun _ => 1)); [|apply rprod_one].
      apply rprod_ext. intros c _. unfold q. destruct (Nat.eqb_spec f' f); [congruence|reflexivity]. }
  rewrite !P in G2. rewrite Nat.eqb_refl in G2. destruct (Nat.eqb_spec (g2 r f) (g1 r f)); auto.
  exfalso. assert (L: ln 2 = ln 1) by congruence. apply ln_inv in L; lra.
Qed.
End Groups.

(** Programs without categorical draws have an outcome. *)
Fixpoint nocat {V A} (m : M V A) : Prop :=
  match m with Ret _ | Fail _ => True | Cat _ _ => False | LeafD _ k => forall v, nocat (k v) end.
Lemma nocat_bind {V A B} (m : M V A) (f : A -> M V B) : nocat m -> (forall a, nocat (f a)) -> nocat (mbind m f).
Proof. intros H Hf. induction m as [a|e|w k IH|key k IH]; cbn [mbind nocat] in *; auto. Qed.
Lemma nocat_lift {V A} (r : res A) : nocat (lift (V := V) r).
Proof. destruct r; exact I. Qed.
Lemma nocat_draws {V A} (ds : list (M V A)) : (forall d, In d ds -> nocat d) -> nocat (draws ds).
Proof.
  induction ds as [|d ds IH]; intros H; cbn [draws]; [exact I|]. apply nocat_bind; [apply H; simpl; auto|]. intros a.
  apply nocat_bind; [apply IH; intros; apply H; simpl; auto|]. intros; exact I.
Qed.
Lemma nocat_draw_fun {V A} (dflt : A) s : forall d : list nat -> M V A, (forall idx, nocat (d idx)) -> nocat (draw_fun dflt s d).
Proof.
  induction s as [|n s IH]; intros d H; cbn [draw_fun].
  - apply nocat_bind; [apply H|]. intros; exact I.
  - apply nocat_bind; [|intros; exact I]. apply nocat_draws. intros m Hm. apply in_map_iff in Hm as (i & <- & _). apply IH. auto.
Qed.
Lemma outcome_some {V A} (supp : list nat -> V -> Prop) (m : M V A) : (forall key, exists v, supp key v) -> nocat m -> exists r, outcome supp m r.
Proof.
  intros Hs. induction m as [a|e|w k IH|key k IH]; cbn [nocat]; intros H; try contradiction.
  - eexists. constructor.
  - eexists. constructor.
  - destruct (Hs key) as (v & Hv). destruct (IH v (H v)) as (r & Hr). exists r. econstructor; eauto.
Qed.
Lemma nocat_leaf {V} (lf : bleaf V) N md p rep : nocat (base_sample lf N md p rep).
Proof.
  unfold base_sample. apply nocat_bind; [apply nocat_lift|]. intros _. apply nocat_bind; [|intros; apply nocat_lift].
  unfold leaf_mode_or_draw. destruct md.
  - destruct (lf_mode lf); [|exact I]. apply nocat_bind; [apply nocat_lift|]. intros; exact I.
  - apply nocat_bind; [|intros; exact I]. unfold draw_tensor. apply nocat_bind; [|intros; exact I]. apply nocat_draw_fun. intros idx v. exact I.
Qed.
(** So does the program decide the grouping of sampling, when leaves have two components. *)
Lemma sample_groups_unique (lf : bleaf nat) Fo sm g1 g2 : (1 < lf_L lf)%nat -> (0 < lf_C lf)%nat -> (forall c, nocat (sm c)) ->
  sample_groups lf Fo sm g1 -> sample_groups lf Fo sm g2 ->
  forall r f, (r < lf_R lf)%nat -> (f < lf_F lf)%nat -> (g1 r f < Fo)%nat -> (g2 r f < Fo)%nat -> g2 r f = g1 r f.
Proof.
  intros HL HC Hnc H1 H2 r f Hr Hf Hlt Hlt2.
  set (c := mkCtx 1 (mkT [1%nat; Fo] (fun idx => if (nth 1 idx 0 =? g1 r f)%nat then 1%nat else 0%nat)) (mkT [1%nat] (fun _ => r)) false 1).
  set (supp := fun (key : list nat) (v : nat) => v = nth 2 key 0%nat).
  destruct (outcome_some supp (sm c)) as (o & Ho); [intros key; eexists; reflexivity|apply Hnc|].
  assert (G: forall n d, (n < 1)%nat -> (d < Fo)%nat -> (get (c_out c) [n; d] < lf_L lf)%nat) by (intros n d _ _; cbn; destruct (d =? g1 r f)%nat; lia).
  destruct (H1 1%nat c supp o ltac:(lia) eq_refl eq_refl eq_refl G ltac:(intros; cbn; auto) Ho) as (t & -> & _ & E1).
  destruct (H2 1%nat c supp _ ltac:(lia) eq_refl eq_refl eq_refl G ltac:(intros; cbn; auto) Ho) as (t' & Et & _ & E2).
  assert (t' = t) by congruence. subst t'.
  specialize (E1 0%nat 0%nat f ltac:(lia) HC Hf). specialize (E2 0%nat 0%nat f ltac:(lia) HC Hf). unfold supp in E1, E2. cbn in E1, E2.
  rewrite E1 in E2. rewrite Nat.eqb_refl in E2. destruct (Nat.eqb_spec (g2 r f) (g1 r f)); auto. discriminate.
Qed.
(** No grouping describes both directions of a single-repetition layer. *)
Theorem simple_no_group (lf : bleaf nat) Fo pl : (1 < Fo)%nat -> (Fo < lf_F lf)%nat -> lf_R lf = 1%nat -> lf_ctx lf = true -> (1 < lf_L lf)%nat -> (0 < lf_C lf)%nat ->
  is_perm pl (lf_F lf + simple_dummy (lf_F lf) Fo) ->
  ~ exists grp, (forall r f, (r < lf_R lf)%nat -> (f < lf_F lf)%nat -> (grp r f < Fo)%nat) /\
     forward_groups lf Fo (simple_forward lf Fo (vec pl)) grp /\ sample_groups lf Fo (fun c => simple_sample lf Fo (vec (argsort pl)) c false) grp.
Proof.
  intros H1 H2 HR Hctx HL HC Hp (grp & Hlt & Hf & Hs).
  destruct (simple_groups_differ _ _ _ H1 H2 Hp) as (f & Hf' & Hne). apply Hne.
  transitivity (grp 0%nat f).
  - symmetry. apply (sample_groups_unique lf Fo (fun c => simple_sample lf Fo (vec (argsort pl)) c false) (fun _ => simple_sgrp (lf_F lf) Fo pl) grp) with (r := 0%nat); auto; try lia.
    + intros c. unfold simple_sample. apply nocat_bind; [apply nocat_leaf|intros; apply nocat_lift].
    + apply simple_sample_groups; auto; lia.
    + apply simple_sgrp_lt. lia.
    + apply Hlt; auto; lia.
  - apply (forward_groups_unique lf Fo (simple_forward lf Fo (vec pl)) (fun _ => simple_grp (lf_F lf) Fo pl) grp) with (r := 0%nat); auto; try lia.
    + apply simple_forward_groups; auto; lia.
    + apply simple_grp_lt; auto; lia.
Qed.

(** ** One group per feature in a layer with several repetitions *)
Lemma slot_ones n : forall sizes p, Forall (fun s => s = 1%nat) sizes -> (p < length sizes)%nat -> length sizes = n -> slot sizes p = p.
Proof.
  induction n as [|n IH]; intros sizes p H Hp Hl; destruct sizes as [|s t]; cbn [length slot] in *; try lia.
  inversion H; subst. destruct p as [|p]; [reflexivity|]. cbn [Nat.ltb Nat.leb]. f_equal. replace (S p - 1)%nat with p by lia. apply IH; auto; lia.
Qed.
Lemma full_scopes F R sizes perms r f o : (0 < F)%nat -> Permutation sizes (group_sizes F F) -> (forall r, (r < R)%nat -> is_perm (perms r) F) ->
  (r < R)%nat -> (f < F)%nat -> (o < F)%nat ->
  get (make_scopes F F R sizes perms) [f; o; r] = if (nth o (perms r) 0 =? f)%nat then 1%nat else 0%nat.
Proof.
  intros HF Hs Hp Hr Hf Ho. unfold make_scopes. cbn [get].
  pose proof (in_group_iff F F sizes (perms r) HF Hs (Hp r Hr) f o Hf Ho) as I. unfold scope_group in I.
  assert (Hl: length sizes = F) by (rewrite (Permutation_length Hs); apply group_sizes_length).
  rewrite (slot_ones F) in I; auto.
  - destruct (in_group F F sizes (perms r) f o), (Nat.eqb_spec (nth o (perms r) 0%nat) f) as [E|E]; auto; exfalso.
    + apply E. destruct I as [I _]. rewrite <- (I eq_refl). apply (argsort_nth _ _ f (Hp r Hr) Hf).
    + destruct I as [_ I]. rewrite <- E in I. rewrite (argsort_left _ _ _ (Hp r Hr) Ho) in I. specialize (I eq_refl). discriminate.
  - apply Forall_forall. intros s Hin. apply (Permutation_in _ Hs) in Hin. unfold group_sizes in Hin. apply in_map_iff in Hin as (i & <- & Hi).
    rewrite Nat.div_same by lia. destruct (Nat.ltb_spec i (F - 1 * F)); lia.
  - rewrite Hl. apply (argsort_nth _ _ f (Hp r Hr) Hf).
Qed.
(** No grouping describes both directions, unless every permutation happens to be the identity. *)
Theorem fact_no_group (lf : bleaf nat) sizes perms r f : (0 < lf_F lf)%nat -> Permutation sizes (group_sizes (lf_F lf) (lf_F lf)) ->
  (forall r, (r < lf_R lf)%nat -> is_perm (perms r) (lf_F lf)) -> lf_ctx lf = true -> (1 < lf_L lf)%nat -> (0 < lf_C lf)%nat ->
  (r < lf_R lf)%nat -> (f < lf_F lf)%nat -> nth f (perms r) 0%nat <> f ->
  let sc := make_scopes (lf_F lf) (lf_F lf) (lf_R lf) sizes perms in
  ~ exists grp, (forall r f, (r < lf_R lf)%nat -> (f < lf_F lf)%nat -> (grp r f < lf_F lf)%nat) /\
     forward_groups lf (lf_F lf) (fact_forward lf (lf_F lf) sc) grp /\ sample_groups lf (lf_F lf) (fun c => fact_sample lf (lf_F lf) sc c false) grp.
Proof.
  intros HF Hs Hp Hctx HL HC Hr Hf Hne sc (grp & Hlt & H1 & H2).
  pose proof (make_scopes_grp (lf_F lf) (lf_F lf) (lf_R lf) sizes perms HF Hs Hp) as Hsc. fold sc in Hsc.
  set (fg := find_group sc (lf_F lf)) in *. pose proof Hsc as (_ & Gl & Gs).
  assert (E1: grp r f = fg r f).
  { apply (sample_groups_unique lf (lf_F lf) (fun c => fact_sample lf (lf_F lf) sc c false) fg grp); auto.
    + intros c. unfold fact_sample. apply nocat_bind; [apply nocat_leaf|intros; apply nocat_lift].
    + apply fact_sample_groups; auto. }
  assert (E2: grp r f = fact_grp (lf_F lf) (lf_F lf) fg r f).
  { apply (forward_groups_unique lf (lf_F lf) (fact_forward lf (lf_F lf) sc) (fact_grp (lf_F lf) (lf_F lf) fg) grp); auto; try lia.
    + apply fact_forward_groups; auto.
    + unfold fact_grp. rewrite Nat.eqb_refl. auto. }
  unfold fact_grp in E2. rewrite Nat.eqb_refl in E2. rewrite E2 in E1. specialize (Gs r f f Hr Hf Hf). rewrite <- E1, Nat.eqb_refl in Gs.
  unfold sc in Gs. rewrite full_scopes in Gs by auto. destruct (Nat.eqb_spec (nth f (perms r) 0%nat) f); [contradiction|discriminate].
Qed.
