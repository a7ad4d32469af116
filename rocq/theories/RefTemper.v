(** Sampling at a temperature is sampling from the network with divided parameters. *)
From Coq Require Import List Arith Lia Bool ZArith Reals Lra FunctionalExtensionality.
Import ListNotations.
From Verif Require Import Base RSum Num Tensor Prob Layers Leaf TypeChecks Einet Build.
Local Open Scope R_scope.
Local Arguments Nat.div : simpl never.
Local Arguments Nat.modulo : simpl never.
Local Arguments Nat.sub : simpl never.
Local Arguments Nat.mul : simpl never.
Local Arguments Nat.add : simpl never.
Local Arguments Nat.pow : simpl never.

Definition over (T : R) (x : num) : num := ndiv x (Fin T).
Lemma over_one x : over 1 x = x.
Proof.
  unfold over. destruct x; cbn [ndiv]; auto.
  - destruct (Req_EM_T 1 0); [lra|]. f_equal. field.
  - destruct (Rlt_dec 1 0); [lra|auto].
  - destruct (Rlt_dec 1 0); [lra|auto].
Qed.

(** * Selection commutes with a map *)
Definition rmap {A B} (f : A -> B) (r : res A) : res B := match r with Ok a => Ok (f a) | Err e => Err e end.
Lemma bind_rmap {A B C} (f : A -> B) (r : res A) (k : B -> res C) : bind (rmap f r) k = bind r (fun a => k (f a)).
Proof. destruct r; reflexivity. Qed.
Lemma rmap_bind {A B C} (f : B -> C) (r : res A) (k : A -> res B) : rmap f (bind r k) = bind r (fun a => rmap f (k a)).
Proof. destruct r; reflexivity. Qed.
Lemma bind_ext' {A B} (r : res A) (k k' : A -> res B) : (forall a, k a = k' a) -> bind r k = bind r k'.
Proof. intros H. destruct r; simpl; auto. Qed.
Section Map.
Variable f : num -> num.
Lemma gather_map d i t : gather d i (tmap f t) = rmap (tmap f) (gather d i t).
Proof. unfold gather, size. cbn [tmap shape]. destruct (_ && _); reflexivity. Qed.
Lemma expand_map s t : expand s (tmap f t) = rmap (tmap f) (expand s t).
Proof. unfold expand. cbn [tmap shape]. destruct (expandable _ _); reflexivity. Qed.
Lemma view_map s t : view s (tmap f t) = rmap (tmap f) (view s t).
Proof. unfold view. cbn [tmap shape]. destruct (_ =? _)%nat; reflexivity. Qed.
Lemma squeeze_map d t : squeeze d (tmap f t) = tmap f (squeeze d t).
Proof. unfold squeeze, size. cbn [tmap shape]. destruct (_ =? _)%nat; reflexivity. Qed.
Lemma unsqueeze_map d t : unsqueeze d (tmap f t) = tmap f (unsqueeze d t).
Proof. reflexivity. Qed.
Lemma select_map lg n d si r p rep : select_disor (tmap f lg) n d si r p rep = rmap (tmap f) (select_disor lg n d si r p rep).
Proof.
  unfold select_disor. rewrite unsqueeze_map. change (shape (tmap f lg)) with (shape lg). rewrite expand_map, bind_rmap, rmap_bind. apply bind_ext'. intros e.
  rewrite rmap_bind. apply bind_ext'. intros p2. rewrite gather_map, bind_rmap, rmap_bind. apply bind_ext'. intros g.
  rewrite rmap_bind. apply bind_ext'. intros r2. rewrite squeeze_map, gather_map, bind_rmap, rmap_bind. apply bind_ext'. intros g2.
  rewrite squeeze_map. change (shape (tmap f (squeeze 3 g2))) with (shape (squeeze 3 g2)). rewrite rmap_bind. apply bind_ext'. reflexivity.
Qed.
End Map.

Definition cool_slay (T : R) (L : slay) : slay := mkL (nf L) (sin L) (sout L) (nrep L) (tmap (over T) (logits L)).
Definition cool_layer (T : R) (l : layer) : layer :=
  match l with
  | LEin L => LEin (cool_slay T L) | LLin L => LLin (cool_slay T L) | LLin2 L => LLin2 (cool_slay T L) | LSum L => LSum (cool_slay T L)
  | LRoot D => LRoot D
  end.
Definition with_leaf {V} (lf : bleaf V) (l : leaf_layer V) : leaf_layer V :=
  match l with LFact _ Fo sc => LFact lf Fo sc | LSimple _ Fo p q => LSimple lf Fo p q | LBase _ => LBase lf end.
Definition cool {V} (T : R) (lf : bleaf V) (E : einet V) : einet V :=
  mkE (e_F E) (e_C E) (e_L E) (e_R E) (e_K E) (with_leaf lf (e_leaf E)) (e_perm E) (map (cool_layer T) (e_layers E))
    (option_map (cool_slay T) (e_mixing E)) (option_map (cool_slay T) (e_root E)).
(** The context at temperature one. *)
Definition at1 (c : sctx) : sctx := mkCtx (c_n c) (c_out c) (c_rep c) (c_mpe c) 1.
Lemma weights_cool lg d T : logits_to_log_weights (tmap (over T) lg) d 1 = logits_to_log_weights lg d T.
Proof.
  unfold logits_to_log_weights. f_equal. unfold tmap. cbn [shape get]. f_equal. apply functional_extensionality. intros i. apply (over_one (over T (get lg i))).
Qed.
Lemma linsum_select_cool T L c : c_tsum c = T -> linsum_select (cool_slay T L) (at1 c) = linsum_select L c.
Proof.
  intros <-. unfold linsum_select. cbn [cool_slay logits sin nrep at1 c_n c_out c_rep c_tsum]. rewrite select_map, bind_rmap. apply bind_ext'. intros g. rewrite weights_cool. reflexivity.
Qed.
Lemma sum_select_cool T L c : c_tsum c = T -> sum_select (cool_slay T L) (at1 c) = sum_select L c.
Proof.
  intros <-. unfold sum_select. cbn [cool_slay logits sin nrep nf at1 c_n c_out c_rep c_tsum]. rewrite select_map, bind_rmap. apply bind_ext'. intros g. rewrite weights_cool. reflexivity.
Qed.
Lemma linsum2_select_cool T L c : c_tsum c = T -> linsum2_select (cool_slay T L) (at1 c) = linsum2_select L c.
Proof.
  intros <-. unfold linsum2_select, linsum_pad. cbn [cool_slay logits sin nrep nf at1 c_n c_out c_rep c_tsum]. rewrite select_map, bind_rmap. apply bind_ext'. intros g. rewrite weights_cool. reflexivity.
Qed.
Lemma einsum_select_cool T L c : c_tsum c = T -> einsum_select (cool_slay T L) (at1 c) = einsum_select L c.
Proof.
  intros <-. unfold einsum_select, einsum_features_out. cbn [cool_slay logits sin nrep nf at1 c_n c_out c_rep c_tsum].
  rewrite unsqueeze_map. change (shape (tmap (over (c_tsum c)) (logits L))) with (shape (logits L)). rewrite expand_map, bind_rmap. apply bind_ext'. intros e.
  apply bind_ext'. intros p2. rewrite gather_map, bind_rmap. apply bind_ext'. intros g. apply bind_ext'. intros r2. rewrite squeeze_map, gather_map, bind_rmap.
  apply bind_ext'. intros g2. rewrite squeeze_map. change (shape (tmap (over (c_tsum c)) (squeeze 2 g2))) with (shape (squeeze 2 g2)). apply bind_ext'. intros _.
  change (size (tmap (over (c_tsum c)) (squeeze 2 g2))) with (size (squeeze 2 g2)). rewrite view_map, bind_rmap. apply bind_ext'. intros v. rewrite weights_cool. reflexivity.
Qed.
Lemma mixing_select_cool T L c : c_tsum c = T -> mixing_select (cool_slay T L) (at1 c) = mixing_select L c.
Proof.
  intros <-. unfold mixing_select. cbn [cool_slay logits sin nrep nf at1 c_n c_out c_rep c_tsum].
  rewrite unsqueeze_map. change (shape (tmap (over (c_tsum c)) (logits L))) with (shape (logits L)). rewrite expand_map, bind_rmap. apply bind_ext'. intros e.
  apply bind_ext'. intros p2. rewrite gather_map, bind_rmap. apply bind_ext'. intros g. rewrite squeeze_map.
  change (shape (tmap (over (c_tsum c)) (squeeze 2 g))) with (shape (squeeze 2 g)). apply bind_ext'. intros _. rewrite weights_cool. reflexivity.
Qed.

(** * Programs *)
Section Prog.
Context {V : Type}.
Lemma mbind_ext {A B} (m : M V A) (k k' : A -> M V B) : (forall a, k a = k' a) -> mbind m k = mbind m k'.
Proof.
  intros H. induction m as [a|e|w k0 IH|key k0 IH]; cbn [mbind]; auto; f_equal; apply functional_extensionality; auto.
Qed.
Lemma mbind_assoc {A B C} (m : M V A) (k : A -> M V B) (h : B -> M V C) : mbind (mbind m k) h = mbind m (fun a => mbind (k a) h).
Proof.
  induction m as [a|e|w k0 IH|key k0 IH]; cbn [mbind]; auto; f_equal; apply functional_extensionality; auto.
Qed.
Lemma mbind_ret {A} (m : M V A) : mbind m (fun a => Ret a) = m.
Proof. induction m as [a|e|w k0 IH|key k0 IH]; cbn [mbind]; auto; f_equal; apply functional_extensionality; auto. Qed.
(** What a step keeps of the context. *)
Definition keeps (T : R) (m : M V sctx) (m1 : M V sctx) : Prop :=
  forall A (k k1 : sctx -> M V A), (forall c, c_tsum c = T -> k c = k1 (at1 c)) -> mbind m k = mbind m1 k1.

Lemma sample_with_cool T fout sel sel1 cond cond1 draw draw1 c : c_tsum c = T -> sel1 (at1 c) = sel c ->
  (forall lw, draw1 (at1 c) lw = draw c lw) -> keeps T (sample_with fout sel cond draw None c) (sample_with fout sel1 cond1 draw1 None (at1 c)).
Proof.
  intros HT Hs Hd A k k1 Hk. unfold sample_with. change (check_context fout (at1 c)) with (check_context fout c). rewrite Hs.
  rewrite ?mbind_assoc. apply mbind_ext. intros _. rewrite ?mbind_assoc. apply mbind_ext. intros lw. rewrite ?mbind_assoc. apply mbind_ext. intros lw'.
  rewrite ?mbind_assoc. rewrite Hd. apply mbind_ext. intros i. cbn [mbind]. apply (Hk (set_out c i)). exact HT.
Qed.
Lemma layer_sample_cool T l c : c_tsum c = T -> keeps T (layer_sample l None c) (layer_sample (cool_layer T l) None (at1 c)).
Proof.
  intros HT. destruct l as [L|L|L|L|D]; cbn [layer_sample cool_layer].
  - unfold einsum_sample. change (einsum_features_out (cool_slay T L)) with (einsum_features_out L). apply sample_with_cool; auto. apply einsum_select_cool; auto.
  - unfold linsum_sample. change (linsum_features_out (cool_slay T L)) with (linsum_features_out L). apply sample_with_cool; auto. apply linsum_select_cool; auto.
  - unfold linsum2_sample. change (linsum_features_out (cool_slay T L)) with (linsum_features_out L). apply sample_with_cool; auto. apply linsum2_select_cool; auto.
  - unfold sum_sample. change (nf (cool_slay T L)) with (nf L). apply sample_with_cool; auto. apply sum_select_cool; auto.
  - intros A k k1 Hk. unfold rootprod_sample. rewrite ?mbind_assoc. apply mbind_ext. intros o. cbn [mbind]. apply (Hk (set_out c o)). exact HT.
Qed.
Lemma layers_cool T ls : forall c, c_tsum c = T -> keeps T (sample_layers (combine ls (map (fun _ => None) ls)) c)
  (sample_layers (combine (map (cool_layer T) ls) (map (fun _ => None) (map (cool_layer T) ls))) (at1 c)).
Proof.
  induction ls as [|l ls IH]; intros c HT A k k1 Hk.
  - cbn [map combine sample_layers mbind]. apply Hk; auto.
  - cbn [map combine sample_layers]. rewrite ?mbind_assoc. apply (IH c HT). intros c' HT'. apply (layer_sample_cool T l c' HT'). auto.
Qed.

(** Leaves that sample in the same way: sizes, default value, modes. *)
Record same_draws (lf lf' : bleaf V) : Prop := {
  sd_C : lf_C lf' = lf_C lf; sd_F : lf_F lf' = lf_F lf; sd_L : lf_L lf' = lf_L lf; sd_R : lf_R lf' = lf_R lf;
  sd_zero : lf_zero lf' = lf_zero lf; sd_mode : lf_mode lf' = lf_mode lf; sd_ctx : lf_ctx lf' = lf_ctx lf }.
Lemma base_sample_cool (lf lf' : bleaf V) N mpe p rep : same_draws lf lf' -> base_sample lf' N mpe p rep = base_sample lf N mpe p rep.
Proof. intros [H1 H2 H3 H4 H5 H6 H7]. unfold base_sample, leaf_mode_or_draw. rewrite H1, H2, H3, H4, H5, H6, H7. reflexivity. Qed.
Lemma leaf_sample_cool (l : leaf_layer V) lf' c mode : same_draws (leaf_of l) lf' -> leaf_sample (with_leaf lf' l) (at1 c) mode = leaf_sample l c mode.
Proof.
  intros H. pose proof (sd_C _ _ H) as H1. pose proof (sd_F _ _ H) as H2. pose proof (sd_L _ _ H) as H3. destruct l as [lf Fo sc|lf Fo p q|lf]; cbn [leaf_of with_leaf leaf_sample at1 c_n c_out c_rep] in *.
  - unfold fact_sample, fact_index. cbn [at1 c_n c_out c_rep]. rewrite (base_sample_cool lf lf') by auto. rewrite H1, H2, H3. reflexivity.
  - unfold simple_sample, simple_index. cbn [at1 c_n c_out c_rep]. rewrite (base_sample_cool lf lf') by auto. rewrite H1, H2, H3. reflexivity.
  - apply base_sample_cool; auto.
Qed.

Definition with_T (a : sargs (V := V)) (T : R) : sargs := mkArgs (a_n a) (a_class a) (a_ev a) (a_mpe a) (a_mpel a) T (a_ms a).
Lemma class_step_cool T lf' (E : einet V) a c : c_tsum c = T -> forall A (k k1 : nat * sctx -> M V A), (forall n c', c_tsum c' = T -> k (n, c') = k1 (n, at1 c')) ->
  mbind (class_step E a c) k = mbind (class_step (cool T lf' E) (with_T a 1) (at1 c)) k1.
Proof.
  intros HT A k k1 Hk. unfold class_step. change (num_samples (with_T a 1)) with (num_samples a). cbn [cool e_K e_root with_T a_class].
  destruct (1 <? e_K E)%nat; [|cbn [mbind]; apply Hk; auto].
  destruct (a_class a) as [|y|cs]; cbn [mbind].
  - destruct (e_root E) as [s|]; cbn [option_map attr lift mbind]; auto. rewrite ?mbind_assoc.
    apply (layer_sample_cool T (LSum s) c HT). intros c' HT'. cbn [mbind]. apply Hk; auto.
  - change (set_out (at1 c) (full [num_samples a; 1%nat] y)) with (at1 (set_out c (full [num_samples a; 1%nat] y))). apply Hk; auto.
  - change (set_out (at1 c) (mkT [length cs; 1%nat] (fun idx => nth (hd 0%nat idx) cs 0%nat))) with (at1 (set_out c (mkT [length cs; 1%nat] (fun idx => nth (hd 0%nat idx) cs 0%nat)))). apply Hk; auto.
Qed.
Lemma mixing_step_cool T lf' (E : einet V) n c : c_tsum c = T -> keeps T (mixing_step E (no_caches E) n c) (mixing_step (cool T lf' E) (no_caches (cool T lf' E)) n (at1 c)).
Proof.
  intros HT A k k1 Hk. unfold mixing_step. cbn [cool e_R e_mixing no_caches ca_mixing]. destruct (1 <? e_R E)%nat; [|cbn [mbind]; apply Hk; auto].
  destruct (e_mixing E) as [m|]; cbn [option_map attr lift mbind]; auto. rewrite ?mbind_assoc.
  assert (K: keeps T (mixing_sample m None c) (mixing_sample (cool_slay T m) None (at1 c))).
  { unfold mixing_sample. change (nf (cool_slay T m)) with (nf m). apply sample_with_cool; auto. apply mixing_select_cool; auto. }
  apply K. intros c' HT'. change (c_out (at1 c')) with (c_out c'). rewrite ?mbind_assoc. apply mbind_ext. intros rep. cbn [mbind at1 c_n c_mpe c_tsum].
  apply (Hk (mkCtx (c_n c') (c_out c) rep (c_mpe c') (c_tsum c'))). exact HT'.
Qed.
Theorem sample_cool (T : R) lf' (E : einet V) a : a_ev a = None -> same_draws (leaf_of (e_leaf E)) lf' ->
  sample E (with_T a T) = sample (cool T lf' E) (with_T a 1).
Proof.
  intros He Hl. unfold sample, sample_ctx, ev_caches. cbn [with_T a_ev]. rewrite He. cbn [lift mbind].
  change (check_args (cool T lf' E) (with_T a 1)) with (check_args E (with_T a T)). rewrite ?mbind_assoc. apply mbind_ext. intros _. rewrite ?mbind_assoc.
  change (init_ctx (with_T a 1)) with (at1 (init_ctx (with_T a T))).
  pose proof (class_step_cool T lf' E (with_T a T) (init_ctx (with_T a T)) eq_refl) as CS. change (with_T (with_T a T) 1) with (with_T a 1) in CS. apply CS.
  intros n c HT. cbn [fst snd]. rewrite ?mbind_assoc. apply (mixing_step_cool T lf' E n c HT). intros c' HT'. rewrite ?mbind_assoc.
  apply (layers_cool T (e_layers E) c' HT'). intros c'' HT''. unfold unpermute. cbn [cool e_perm e_R e_F e_leaf with_T a_mpe a_mpel a_ms].
  destruct (e_perm E) as [[p q]|].
  - cbn [at1 c_rep c_out]. destruct (index_dim _ _ _) as [rows|e]; cbn [bind lift mbind]; auto. destruct (gather _ _ _) as [o|e]; cbn [bind lift mbind]; auto.
    change (set_out (at1 c'') o) with (at1 (set_out c'' o)). rewrite leaf_sample_cool by auto. reflexivity.
  - cbn [lift mbind]. rewrite leaf_sample_cool by auto. reflexivity.
Qed.
End Prog.

(** * Construction *)
Section BuildCool.
Context {V : Type}.
Variables (g : config) (o : oracle V) (T : R) (lf' : bleaf V).
(** The same random choices with all sum parameters divided by [T] and another leaf object. *)
Definition cooler : oracle V :=
  mkOracle (fun i idx => over T (o_logits o i idx)) (fun idx => over T (o_top o idx)) (fun idx => over T (o_mix o idx)) (fun idx => over T (o_root o idx))
    (o_sizes o) (o_perm o) (fun F C L R => rmap (fun _ => lf') (o_leaf o F C L R)).
Lemma new_layer_cool ws lg nf sin sout nrep drop : (forall L t, ws (mkL (Layers.nf L) (Layers.sin L) (Layers.sout L) (Layers.nrep L) t) = ws L) ->
  new_layer ws (fun idx => over T (lg idx)) nf sin sout nrep drop = rmap (cool_slay T) (new_layer ws lg nf sin sout nrep drop).
Proof.
  intros H. unfold new_layer. rewrite ?rmap_bind. apply bind_ext'. intros _. rewrite ?rmap_bind. apply bind_ext'. intros _.
  rewrite ?rmap_bind. apply bind_ext'. intros _. rewrite ?rmap_bind. apply bind_ext'. intros _. rewrite ?rmap_bind. apply bind_ext'. intros d.
  rewrite ?rmap_bind. apply bind_ext'. intros _. cbn [rmap]. unfold cool_slay, tmap. cbn [Layers.nf Layers.sin Layers.sout Layers.nrep logits shape get].
  do 3 f_equal. apply (H (mkL nf sin sout nrep (mkT [] lg))).
Qed.
Lemma new_intermediate_cool t lg nf sin sout nrep drop :
  new_intermediate t (fun idx => over T (lg idx)) nf sin sout nrep drop = rmap (cool_layer T) (new_intermediate t lg nf sin sout nrep drop).
Proof.
  destruct t; cbn [new_intermediate]; auto; rewrite new_layer_cool by reflexivity; rewrite bind_rmap, rmap_bind; reflexivity.
Qed.
Lemma mapM_rmap {A B C} (f : A -> res B) (h : B -> C) l : mapM (fun x => rmap h (f x)) l = rmap (map h) (mapM f l).
Proof.
  induction l as [|x l IH]; cbn [mapM]; auto. rewrite bind_rmap, rmap_bind. apply bind_ext'. intros b. rewrite IH, bind_rmap, rmap_bind. reflexivity.
Qed.
Lemma mixing_cool : build_mixing g cooler = rmap (option_map (cool_slay T)) (build_mixing g o).
Proof.
  unfold build_mixing. destruct (1 <? _)%nat; auto. cbn [cooler o_mix]. rewrite new_layer_cool by reflexivity. rewrite bind_rmap, rmap_bind. reflexivity.
Qed.
Lemma root_cool : build_root g cooler = rmap (option_map (cool_slay T)) (build_root g o).
Proof.
  unfold build_root. destruct (1 <? _)%nat; auto. cbn [cooler o_root]. rewrite new_layer_cool by reflexivity. rewrite bind_rmap, rmap_bind. reflexivity.
Qed.
Lemma layer_nf_cool l : layer_nf (cool_layer T l) = layer_nf l.
Proof. destruct l; reflexivity. Qed.
Lemma layer_nfo_cool l : layer_nfo (cool_layer T l) = layer_nfo l.
Proof. destruct l; reflexivity. Qed.
Lemma mapM_ext' {A B} (f h : A -> res B) l : (forall x, f x = h x) -> mapM f l = mapM h l.
Proof. intros H. induction l as [|x l IH]; cbn [mapM]; auto. rewrite H, IH. reflexivity. Qed.
Lemma top_cool i : top_layer g cooler i = rmap (cool_layer T) (top_layer g o i).
Proof. apply new_intermediate_cool. Qed.
Lemma top_down_cool : build_top_down g cooler = rmap (cool T lf') (build_top_down g o).
Proof.
  unfold build_top_down. rewrite (mapM_ext' _ (fun i => rmap (cool_layer T) (top_layer g o i)) _ top_cool), mapM_rmap, bind_rmap, rmap_bind. apply bind_ext'. intros ls.
  match goal with |- bind ?a ?k = rmap _ (bind ?b ?k2) => assert (X: a = rmap (map (cool_layer T)) b) end.
  { destruct (_ =? 0)%Z; [|reflexivity]. cbn [cooler o_logits]. rewrite new_layer_cool by reflexivity. rewrite bind_rmap, rmap_bind. apply bind_ext'. intros L. cbn [rmap]. rewrite map_app. reflexivity. }
  rewrite X, bind_rmap, rmap_bind. apply bind_ext'. intros ls2. rewrite <- map_rev. destruct (rev ls2) as [|l ls3]; cbn [map bind]; [reflexivity|].
  rewrite layer_nf_cool, mixing_cool, root_cool. unfold build_input. cbn [cooler o_leaf o_perm o_sizes].
  destruct (o_leaf o _ _ _ _) as [lf|e]; cbn [rmap bind]; [|reflexivity].
  destruct (nval (g_R g) =? 1)%nat; cbn [bind]; destruct (build_mixing g o) as [m|e]; cbn [rmap bind]; auto; destruct (build_root g o) as [r|e]; cbn [rmap bind]; auto.
Qed.
Lemma bottom_layers_cool : forall k i n, bottom_layers g cooler k i n = rmap (map (cool_layer T)) (bottom_layers g o k i n).
Proof.
  induction k as [|k IH]; intros i n; cbn [bottom_layers]; [reflexivity|]. cbn [cooler o_logits]. rewrite new_intermediate_cool, bind_rmap, rmap_bind. apply bind_ext'. intros l.
  fold cooler. rewrite IH, layer_nfo_cool, bind_rmap, rmap_bind. reflexivity.
Qed.
Lemma bottom_up_cool : build_bottom_up g cooler = rmap (cool T lf') (build_bottom_up g o).
Proof.
  unfold build_bottom_up. rewrite bottom_layers_cool, bind_rmap, rmap_bind. apply bind_ext'. intros ls.
  match goal with |- bind ?a ?k = rmap _ (bind ?b ?k2) => assert (X: a = rmap (map (cool_layer T)) b) end.
  { destruct (_ =? 0)%Z; [|reflexivity]. cbn [cooler o_logits]. rewrite new_layer_cool by reflexivity. rewrite bind_rmap, rmap_bind. apply bind_ext'. intros L. cbn [rmap]. rewrite map_app. reflexivity. }
  rewrite X, bind_rmap, rmap_bind. apply bind_ext'. intros ls2. rewrite rmap_bind. apply bind_ext'. intros _.
  rewrite <- map_rev. destruct (rev ls) as [|l ls3]; cbn [map bind]; [reflexivity|]. rewrite layer_nfo_cool, mixing_cool, root_cool. cbn [cooler o_top o_leaf o_perm].
  rewrite new_layer_cool by reflexivity. rewrite bind_rmap, rmap_bind. apply bind_ext'. intros rs.
  destruct (o_leaf o _ _ _ _) as [lf|e]; cbn [rmap bind]; [|reflexivity].
  destruct (build_mixing g o) as [m|e]; cbn [rmap bind]; auto; destruct (build_root g o) as [r|e]; cbn [rmap bind]; auto.
  unfold cool. cbn [e_F e_C e_L e_R e_K e_leaf e_perm e_layers e_mixing e_root with_leaf]. rewrite map_app. reflexivity.
Qed.
Theorem build_cool : build g cooler = rmap (cool T lf') (build g o).
Proof.
  unfold build. rewrite rmap_bind. apply bind_ext'. intros _. destruct (g_struct g); [apply top_down_cool|apply bottom_up_cool|reflexivity].
Qed.
End BuildCool.
