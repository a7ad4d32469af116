(** Construction: a configuration that is accepted and whose random choices have the right form
    yields a well-formed network. *)
From Coq Require Import List Arith Lia Bool ZArith Reals Lra Permutation.
Import ListNotations.
From Verif Require Import Base RSum Num Tensor Prob Layers Circuit Net RefFwd RefSample RefLaw Leaf Perm RefLeaf RefLeafS
  TypeChecks Einet RefNet RefEinet RefEinetS RefScopes Build.
Local Arguments Nat.div : simpl never.
Local Arguments Nat.modulo : simpl never.
Local Arguments Nat.sub : simpl never.
Local Arguments Nat.mul : simpl never.
Local Arguments Nat.add : simpl never.
Local Arguments Nat.pow : simpl never.
Local Arguments Z.pow : simpl never.

(** * The random choices *)
(** Number of groups of features (and input features of the lowest layer) of a top-down network. *)
Definition groups_of (g : config) : nat := 2 ^ nval (g_depth g).
(** Length of the permutations: FactorizedLeafSimple also permutes its dummy features. *)
Definition perm_len (g : config) : nat :=
  match g_struct g with
  | STopDown => if nval (g_R g) =? 1 then nval (g_F g) + simple_dummy (nval (g_F g)) (groups_of g) else nval (g_F g)
  | _ => nval (g_F g)
  end.
(** The parameters are finite, the group sizes are a shuffle of the balanced sizes, the permutations
    are permutations, and the leaf class yields a leaf of the requested size. *)
Record oracle_ok {V} (g : config) (o : oracle V) : Prop := {
  ok_logits : forall i idx, isfin (o_logits o i idx) = true;
  ok_top : forall idx, isfin (o_top o idx) = true;
  ok_mix : forall idx, isfin (o_mix o idx) = true;
  ok_root : forall idx, isfin (o_root o idx) = true;
  ok_sizes : Permutation (o_sizes o) (group_sizes (nval (g_F g)) (groups_of g));
  ok_perm : forall r, r < nval (g_R g) -> is_perm (o_perm o r) (perm_len g);
  ok_leaf : exists lf, o_leaf o (nval (g_F g)) (nval (g_C g)) (nval (g_L g)) (nval (g_R g)) = Ok lf /\ leaf_ok lf /\
      lf_F lf = nval (g_F g) /\ lf_C lf = nval (g_C g) /\ lf_L lf = nval (g_L g) /\ lf_R lf = nval (g_R g) }.

(** * Checks *)
Lemma check_int_inv v lo : (0 < lo)%Z -> check_int v lo = Ok tt -> (lo <= zval v)%Z /\ exists x, is_num v TInt x.
Proof.
  intros Hlo H. unfold check_int in H. apply bind_ok in H as (v' & H & _).
  assert (Hv: v <> VNone) by (intros ->; discriminate H).
  destruct (check_valid_nonzero v TInt (BInt lo) BNone false (Some (IZR lo)) None) as [A _];
    [constructor|constructor|simpl; intros E; apply eq_IZR_R0 in E; lia|exact I|exact Hv|].
  destruct A as (x & Hn & G & _); [eauto|]. split; [|eauto].
  inversion Hn; subst; simpl in G; apply le_IZR in G; exact G.
Qed.
Lemma check_int_ok v lo x : is_num v TInt x -> (lo <= zval v)%Z -> check_int v lo = Ok tt.
Proof.
  intros Hn L. unfold check_int.
  assert (G: ge_bound x (Some (IZR lo))) by (inversion Hn; subst; simpl in *; apply IZR_le; auto).
  destruct (check_valid_accepts v TInt (BInt lo) BNone false (Some (IZR lo)) None x) as (v' & E & _); auto; try constructor.
  rewrite E. reflexivity.
Qed.
Lemma nval_pos v n : (Z.of_nat n <= zval v)%Z -> n <= nval v.
Proof. unfold nval. lia. Qed.

Record sizes_ok (g : config) : Prop := {
  so_F : 2 <= nval (g_F g); so_C : 1 <= nval (g_C g); so_K : 1 <= nval (g_K g); so_S : 1 <= nval (g_S g);
  so_R : 1 <= nval (g_R g); so_L : 1 <= nval (g_L g) }.
Lemma assert_valid_inv g : assert_valid g = Ok tt -> g_card g = None ->
  sizes_ok g /\ ((0 <= zval (g_depth g))%Z -> 2 ^ nval (g_depth g) <= nval (g_F g)) /\
  (g_struct g = SBottomUp -> g_layer g = TLinsum).
Proof.
  intros H Hc. unfold assert_valid in H.
  apply bind_ok in H as ([] & _ & H). apply bind_ok in H as ([] & HF & H). apply bind_ok in H as ([] & HC & H).
  apply bind_ok in H as ([] & HK & H). apply bind_ok in H as ([] & HS & H). apply bind_ok in H as ([] & HR & H).
  apply bind_ok in H as ([] & HL & H). apply bind_ok in H as (d & _ & H). apply bind_ok in H as ([] & _ & H).
  apply bind_ok in H as ([] & _ & H). apply bind_ok in H as ([] & _ & H). apply bind_ok in H as ([] & _ & H).
  apply bind_ok in H as ([] & Hb & H). apply bind_ok in H as ([] & _ & H). apply bind_ok in H as (b & Hp & H).
  apply check_int_inv in HF as [HF _]; [|lia]. apply check_int_inv in HC as [HC _]; [|lia]. apply check_int_inv in HK as [HK _]; [|lia].
  apply check_int_inv in HS as [HS _]; [|lia]. apply check_int_inv in HR as [HR _]; [|lia]. apply check_int_inv in HL as [HL _]; [|lia].
  split; [split; apply nval_pos; auto|]. split.
  - intros Hd. rewrite Hc, Z.div_1_r in Hp. unfold pow2_le in Hp. destruct (Z.ltb_spec (zval (g_depth g)) 0); [lia|].
    inversion Hp; subst b. clear Hp. destruct (Z.leb_spec (2 ^ zval (g_depth g)) (zval (g_F g))); [|discriminate].
    unfold nval. apply Nat2Z.inj_le. rewrite Nat2Z.inj_pow, !Z2Nat.id by lia. exact H1.
  - intros E. rewrite E in Hb. destruct (g_layer g); auto; discriminate.
Qed.

Lemma new_layer_inv ws lg nf sin sout nrep drop L : new_layer ws lg nf sin sout nrep drop = Ok L ->
  L = mkL nf sin sout nrep (mkT (ws (mkL nf sin sout nrep (mkT [] lg))) lg).
Proof.
  unfold new_layer. intros H. apply bind_ok in H as ([] & _ & H). apply bind_ok in H as ([] & _ & H).
  apply bind_ok in H as ([] & _ & H). apply bind_ok in H as ([] & _ & H). apply bind_ok in H as (d & _ & H).
  apply bind_ok in H as ([] & _ & H). inversion H. reflexivity.
Qed.
(** A dropout rate that a layer accepts. *)
Definition drop_ok (d : pyval) : Prop := exists x, is_num d TFloat (Fin x) /\ (0 <= x < 1)%R.
Lemma no_drop_ok : drop_ok no_drop.
Proof. exists 0%R. split; [constructor|lra]. Qed.
Lemma check_nat n : 1 <= n -> check_int (VInt (Z.of_nat n)) 1 = Ok tt.
Proof. intros. eapply check_int_ok; [constructor|]. simpl. lia. Qed.
Lemma new_layer_ok ws lg nf sin sout nrep drop : 1 <= nf -> 1 <= sin -> 1 <= sout -> 1 <= nrep -> drop_ok drop ->
  new_layer ws lg nf sin sout nrep drop = Ok (mkL nf sin sout nrep (mkT (ws (mkL nf sin sout nrep (mkT [] lg))) lg)).
Proof.
  intros H1 H2 H3 H4 (x & Hn & Hx). unfold new_layer. rewrite !check_nat by auto. cbn [bind].
  destruct (check_valid_accepts drop TFloat (BFloat (Fin 0)) (BFloat (Fin 1)) false (Some 0%R) (Some 1%R) (Fin x)) as (v' & E & Hv);
    [constructor|constructor|exact Hn|simpl; lra|simpl; lra|].
  rewrite E. cbn [bind]. rewrite (is_num_numval _ _ _ Hv). unfold bernoulli_ok.
  destruct (Rle_dec 0 x); [|lra]. destruct (Rle_dec x 1); [|lra]. reflexivity.
Qed.

(** * Layers *)
Lemma new_intermediate_ok Rn t lg nf sin sout drop l : (forall idx, isfin (lg idx) = true) ->
  1 <= sin -> 1 <= sout -> 1 <= Rn -> 2 <= nf -> (t = TLinsum \/ nf mod 2 = 0) ->
  new_intermediate t lg nf sin sout Rn drop = Ok l ->
  layer_ok Rn nf sin l /\ layer_sout sin l = sout /\ layer_dout l = (nf + 1) / 2 /\ layer_nf l = nf /\ layer_nfo l = (nf + 1) / 2.
Proof.
  intros Hlg H1 H2 H3 H4 H5 H.
  assert (Hd: nf mod 2 = 0 -> nf / 2 = (nf + 1) / 2).
  { intros E. assert (nf = 2 * (nf / 2)) by (pose proof (Nat.div_mod nf 2); lia). rewrite H0 at 2.
    rewrite (Nat.mul_comm 2), Nat.div_add_l by lia. change (1 / 2) with 0. lia. }
  assert (Hp: (nf + nf mod 2) / 2 = (nf + 1) / 2).
  { pose proof (Nat.mod_upper_bound nf 2). assert (nf mod 2 = 0 \/ nf mod 2 = 1) as [E|E] by lia; rewrite E; auto.
    rewrite Nat.add_0_r. auto. }
  destruct t; cbn [new_intermediate] in H; [| | |discriminate]; apply bind_ok in H as (L & HL & H); inversion H; subst l; clear H;
  apply new_layer_inv in HL; subst L; cbn [layer_ok layer_sout layer_dout layer_nf layer_nfo RefFwd.einsum_ok].
  - unfold linsum_ok, dims, lfin, linsum_features_out, linsum_pad. cbn [Layers.nf Layers.sin Layers.sout nrep logits shape get].
    repeat split; auto; lia.
  - unfold linsum2_ok, dims, lfin, linsum_features_out, linsum_pad. cbn [Layers.nf Layers.sin Layers.sout nrep logits shape get].
    destruct H5 as [H5|H5]; [discriminate|]. repeat split; auto; lia.
  - unfold einsum_ok, dims, lfin, einsum_features_out. cbn [Layers.nf Layers.sin Layers.sout nrep logits shape get].
    destruct H5 as [H5|H5]; [discriminate|]. repeat split; auto; lia.
Qed.
Lemma new_sum_ok Rn lg nf sin sout drop L : (forall idx, isfin (lg idx) = true) -> 1 <= sin ->
  new_layer sum_weight_shape lg nf sin sout Rn drop = Ok L ->
  layer_ok Rn nf sin (LSum L) /\ Layers.sout L = sout /\ Layers.nf L = nf /\ sum_ok L /\ Layers.sin L = sin /\ nrep L = Rn.
Proof.
  intros Hlg H1 H. apply new_layer_inv in H. subst L. cbn [layer_ok Layers.nf Layers.sout Layers.sin nrep].
  unfold sum_ok, dims, lfin. cbn [Layers.nf Layers.sin Layers.sout nrep logits shape get]. repeat split; auto; lia.
Qed.

Lemma layers_ok_app Rn ls ls' : forall D S D' S' D'' S'', layers_ok Rn ls D S D' S' -> layers_ok Rn ls' D' S' D'' S'' ->
  layers_ok Rn (ls ++ ls') D S D'' S''.
Proof.
  induction ls as [|l ls IH]; cbn [app layers_ok]; intros D S D' S' D'' S'' H H'.
  - destruct H as [-> ->]. auto.
  - destruct H as [H1 H2]. split; auto. eapply IH; eauto.
Qed.

Lemma pow2_half i : (2 ^ S i + 1) / 2 = 2 ^ i.
Proof. rewrite Nat.pow_succ_r'. rewrite (Nat.mul_comm 2), Nat.div_add_l by lia. change (1 / 2) with 0. lia. Qed.
Lemma pow2_pos i : 1 <= 2 ^ i.
Proof. pose proof (Nat.pow_nonzero 2 i). lia. Qed.

Lemma half_ge n k : 2 ^ S k <= n -> 2 ^ k <= (n + 1) / 2.
Proof.
  intros H. rewrite Nat.pow_succ_r' in H. apply Nat.div_le_lower_bound; lia.
Qed.

Section Ok.
Context {V : Type}.
Variables (g : config) (o : oracle V).
Hypothesis Ho : oracle_ok g o.
Hypothesis Hg : sizes_ok g.
Let F := nval (g_F g).
Let C := nval (g_C g).
Let S' := nval (g_S g).
Let Lv := nval (g_L g).
Let R := nval (g_R g).
Let K := nval (g_K g).
Let depth := nval (g_depth g).

(** The layers 1 .. k of a top-down network, from the lowest to the highest. *)
Lemma top_layers_ok : forall k ls, k <= depth -> mapM (top_layer g o) (seq 1 k) = Ok ls -> 0 < k ->
  layers_ok R (rev ls) (2 ^ k) (if k <? depth then S' else Lv) 1 K /\
  exists l ls', rev ls = l :: ls' /\ layer_nf l = 2 ^ k.
Proof.
  induction k as [|k IH]; intros ls Hk H H0; [lia|].
  rewrite seq_S_app in H. 
  assert (A: exists la l, mapM (top_layer g o) (seq 1 k) = Ok la /\ top_layer g o (1 + k) = Ok l /\ ls = la ++ [l]).
  { clear - H. revert ls H. generalize (seq 1 k) as xs. induction xs as [|x xs IH]; cbn [app mapM]; intros ls H.
    - apply bind_ok in H as (l & Hl & H). cbn [bind] in H. inversion H. exists [], l. auto.
    - apply bind_ok in H as (y & Hy & H). apply bind_ok in H as (ys & Hys & H). inversion H.
      destruct (IH _ Hys) as (la & l & E1 & E2 & ->). exists (y :: la), l. rewrite Hy. cbn [bind]. rewrite E1. auto. }
  destruct A as (la & l & Ea & El & ->). rewrite rev_app_distr. cbn [rev app].
  unfold top_layer in El. cbn [Nat.add] in El. change (1 + k) with (S k) in El.
  fold depth S' Lv R K in El.
  assert (P1 := so_S g Hg). assert (P2 := so_L g Hg). assert (P3 := so_K g Hg). assert (P4 := so_R g Hg).
  apply (new_intermediate_ok R) in El; auto.
  - destruct El as (Hl & Hs & Hd & Hn & _). split.
    2:{ exists l, (rev la). auto. }
    cbn [layers_ok]. split; auto. rewrite Hs, Hd, pow2_half.
    destruct k as [|k].
    + cbn [seq mapM] in Ea. inversion Ea; subst la. cbn [rev layers_ok]. rewrite Nat.eqb_refl. auto.
    + destruct (IH la) as [A _]; auto; [lia|lia|]. destruct (Nat.ltb_spec (S k) depth); [|lia].
      change (S (S k) =? 1) with false. cbn [Nat.eqb]. auto.
  - apply (ok_logits g o Ho).
  - destruct (S k <? depth); auto.
  - destruct (S k =? 1); auto.
  - rewrite Nat.pow_succ_r'. pose proof (pow2_pos k). lia.
  - right. rewrite Nat.pow_succ_r', Nat.mul_comm. apply Nat.mod_mul. lia.
Qed.

Lemma build_mixing_inv m : build_mixing g o = Ok m ->
  (1 < R -> exists mm, m = Some mm /\ mixing_ok mm /\ sin mm = R /\ sout mm = K).
Proof.
  unfold build_mixing. fold R K. intros H HR. destruct (Nat.ltb_spec 1 R); [|lia].
  apply bind_ok in H as (mm & Hm & H). inversion H; subst m. exists mm. split; auto. apply new_layer_inv in Hm. subst mm.
  unfold mixing_ok, lfin. cbn [nf sin sout logits shape get]. repeat split; auto; [lia|].
  intros; apply (ok_mix g o Ho).
Qed.
Lemma build_root_inv m : build_root g o = Ok m ->
  (1 < K -> exists s, m = Some s /\ sum_ok s /\ nf s = 1 /\ sin s = K /\ sout s = 1 /\ nrep s = 1).
Proof.
  unfold build_root. fold K. intros H HK. destruct (Nat.ltb_spec 1 K); [|lia].
  apply bind_ok in H as (s & Hs & H). inversion H; subst m. exists s. split; auto.
  apply (new_sum_ok 1) in Hs; [|apply (ok_root g o Ho)|lia]. tauto.
Qed.

Theorem build_top_down_inv E : g_struct g = STopDown -> build_top_down g o = Ok E ->
  einet_ok E /\ e_F E = F /\ e_C E = C /\ e_R E = R /\ e_K E = K /\ leaf_out E = 2 ^ depth.
Proof.
  intros Hst H. unfold build_top_down in H. fold F C S' Lv R K depth in H.
  apply bind_ok in H as (ls0 & H0 & H). apply bind_ok in H as (ls & H1 & H). apply bind_ok in H as (l & H2 & H).
  apply bind_ok in H as (leaf & H3 & H). apply bind_ok in H as (m & H4 & H). apply bind_ok in H as (r & H5 & H).
  inversion H; subst E; clear H.
  assert (P0 := so_F g Hg). assert (P1 := so_S g Hg). assert (P2 := so_L g Hg). assert (P3 := so_K g Hg).
  assert (P4 := so_R g Hg). assert (P5 := so_C g Hg). fold F C S' Lv R K in P0, P1, P2, P3, P4, P5.
  assert (A: layers_ok R (rev ls) (2 ^ depth) Lv 1 K /\ layer_nf l = 2 ^ depth).
  { destruct (Z.eqb_spec (zval (g_depth g)) 0) as [Ez|Ez].
    - assert (Ed: depth = 0) by (unfold depth, nval; rewrite Ez; reflexivity). rewrite Ed in *.
      cbn [seq mapM] in H0. inversion H0; subst ls0. apply bind_ok in H1 as (L & HL & H1). cbn [app] in H1. inversion H1; subst ls.
      cbn [rev app] in *. inversion H2; subst l. apply (new_sum_ok R) in HL; [|apply (ok_logits g o Ho)|lia].
      destruct HL as (A & B & B' & _). cbn [layers_ok layer_dout layer_sout layer_nf]. rewrite B, B'. auto.
    - inversion H1; subst ls. destruct (Nat.eq_dec depth 0) as [Ed|Ed].
      + rewrite Ed in *. cbn [seq mapM] in H0. inversion H0; subst ls0. discriminate H2.
      + destruct (top_layers_ok depth ls0) as [A (l' & ls' & E1 & E2)]; auto; [lia|].
        rewrite E1 in H2. inversion H2; subst l'. rewrite Nat.ltb_irrefl in A. auto. }
  destruct A as [A1 A2]. rewrite A2 in H3. unfold build_input in H3. fold F C Lv R in H3.
  destruct (ok_leaf g o Ho) as (lf & Elf & Hlf & D1 & D2 & D3 & D4). fold F C Lv R in Elf, D1, D2, D3, D4. rewrite Elf in H3. cbn [bind] in H3.
  assert (Hgr: 0 < 2 ^ depth) by apply pow2_pos.
  assert (Q: leaf_of leaf = lf /\ leaf_out (mkE F C Lv R K leaf None (rev ls) m r) = 2 ^ depth /\
             leaf_layer_ok (mkE F C Lv R K leaf None (rev ls) m r)).
  { pose proof (ok_perm g o Ho) as Hp. unfold perm_len, groups_of in Hp. rewrite Hst in Hp. fold F R depth in Hp.
    destruct (Nat.eqb_spec R 1) as [ER|ER]; inversion H3; subst leaf; (split; [reflexivity|]); (split; [reflexivity|]);
    unfold leaf_layer_ok; cbn [e_leaf e_perm e_F e_R].
    - repeat split; auto; apply Hp; lia.
    - apply make_scopes_grp; auto. apply (ok_sizes g o Ho). }
  destruct Q as (Q1 & Q2 & Q3).
  split; [|cbn [e_F e_C e_R e_K]; auto 6]. split; cbn [e_F e_C e_R e_K e_L e_leaf e_layers e_mixing e_root]; rewrite ?Q1; auto; try lia.
  - rewrite Q2. auto.
  - apply build_mixing_inv. auto.
  - apply build_root_inv. auto.
Qed.

(** The layers of a bottom-up network: [k] more layers on [n] input features. *)
Lemma bottom_layers_ok : g_layer g = TLinsum -> forall k i n ls, 2 ^ k <= n -> 0 < k -> bottom_layers g o k i n = Ok ls ->
  exists D, layers_ok R ls n (if i =? 0 then Lv else S') D S' /\ 1 <= D /\
  exists l ls', rev ls = l :: ls' /\ layer_nfo l = D.
Proof.
  intros Ht. assert (P0 := so_F g Hg). assert (P1 := so_S g Hg). assert (P2 := so_L g Hg). assert (P4 := so_R g Hg).
  fold F S' Lv R in P0, P1, P2, P4.
  induction k as [|k IH]; intros i n ls Hn Hk H; [lia|].
  cbn [bottom_layers] in H. fold S' Lv R in H. apply bind_ok in H as (l & Hl & H). apply bind_ok in H as (lt & Hlt & H).
  inversion H; subst ls; clear H.
  assert (Hn2: 2 <= n) by (rewrite Nat.pow_succ_r' in Hn; pose proof (pow2_pos k); lia).
  apply (new_intermediate_ok R) in Hl; auto; [|apply (ok_logits g o Ho)|destruct (i =? 0); auto].
  destruct Hl as (Hl & Hs & Hd & Hnf & Hnfo).
  destruct k as [|k].
  - cbn [bottom_layers] in Hlt. inversion Hlt; subst lt. exists ((n + 1) / 2). cbn [layers_ok]. rewrite Hs, Hd. split; auto.
    split; [apply (half_ge n 0); auto|]. exists l, []. auto.
  - destruct (IH (S i) (layer_nfo l) lt) as (D & H1 & H2 & l' & ls' & E1 & E2); [rewrite Hnfo; apply half_ge; auto|lia|auto|].
    exists D. split; [|split; auto].
    + cbn [layers_ok]. split; auto. rewrite Hs, Hd, <- Hnfo. exact H1.
    + cbn [rev]. rewrite E1. exists l', (ls' ++ [l]). auto.
Qed.

Theorem build_bottom_up_inv E : g_struct g = SBottomUp -> g_layer g = TLinsum -> 2 ^ depth <= F ->
  build_bottom_up g o = Ok E ->
  einet_ok E /\ e_F E = F /\ e_C E = C /\ e_R E = R /\ e_K E = K /\ leaf_out E = F.
Proof.
  intros Hst Ht Hd H. unfold build_bottom_up in H. fold F C S' Lv R K depth in H.
  apply bind_ok in H as (ls & H0 & H). apply bind_ok in H as (ls1 & _ & H). apply bind_ok in H as ([] & Hg0 & H).
  apply bind_ok in H as (l & H2 & H).
  apply bind_ok in H as (rs & H3 & H). apply bind_ok in H as (lf0 & H3' & H). apply bind_ok in H as (m & H4 & H). apply bind_ok in H as (r & H5 & H).
  inversion H; subst E; clear H.
  assert (P0 := so_F g Hg). assert (P1 := so_S g Hg). assert (P2 := so_L g Hg). assert (P3 := so_K g Hg).
  assert (P4 := so_R g Hg). assert (P5 := so_C g Hg). fold F C S' Lv R K in P0, P1, P2, P3, P4, P5.
  assert (Hdep: 0 < depth) by (destruct (Nat.ltb_spec 0 depth); [auto|discriminate]).
  destruct (bottom_layers_ok Ht depth 0 F ls Hd Hdep H0) as (D & A1 & A2 & l' & ls' & E1 & E2).
  rewrite E1 in H2. inversion H2; subst l'. rewrite E2 in *.
  destruct (ok_leaf g o Ho) as (lf & Elf & Hlf & D1 & D2 & D3 & D4). fold F C Lv R in Elf, D1, D2, D3, D4.
  assert (lf0 = lf) by congruence. subst lf0.
  apply (new_sum_ok R) in H3; [|apply (ok_top g o Ho)|lia]. destruct H3 as (B1 & B2 & B3 & _).
  split; [|cbn [e_F e_C e_R e_K]; auto 6]. split; cbn [e_F e_C e_R e_K e_L e_leaf e_layers e_mixing e_root leaf_of]; auto; try lia.
  - unfold leaf_layer_ok. cbn [e_leaf e_perm e_F e_R]. intros i Hi. split; auto.
    pose proof (ok_perm g o Ho i Hi) as Hp. unfold perm_len in Hp. rewrite Hst in Hp. exact Hp.
  - unfold leaf_out. cbn [e_leaf e_F]. eapply layers_ok_app; [exact A1|].
    cbn [layers_ok layer_ok layer_dout layer_sout]. rewrite B2, B3. split; [exact B1|]. auto.
  - apply build_mixing_inv. auto.
  - apply build_root_inv. auto.
Qed.
End Ok.

(** * Every network that the constructor returns is well formed *)
Theorem build_inv {V} (g : config) (o : oracle V) E : g_card g = None -> oracle_ok g o -> build g o = Ok E ->
  einet_ok E /\ e_F E = nval (g_F g) /\ e_C E = nval (g_C g) /\ e_R E = nval (g_R g) /\ e_K E = nval (g_K g).
Proof.
  intros Hc Ho H. unfold build in H. apply bind_ok in H as ([] & Ha & H).
  destruct (assert_valid_inv g Ha Hc) as (Hs & Hp & Hb). destruct (g_struct g) eqn:Est; [| |discriminate].
  - apply (build_top_down_inv g o Ho Hs E Est) in H. tauto.
  - assert (Hdep: 2 ^ nval (g_depth g) <= nval (g_F g)).
    { apply Hp. destruct (Z.ltb_spec (zval (g_depth g)) 0) as [L|L]; auto. exfalso.
      unfold build_bottom_up in H. apply bind_ok in H as (ls & _ & H). apply bind_ok in H as (ls1 & _ & H).
      replace (nval (g_depth g)) with 0 in H by (unfold nval; lia). discriminate H. }
    apply (build_bottom_up_inv g o Ho Hs E Est (Hb eq_refl) Hdep) in H. tauto.
Qed.

(** * When the constructor succeeds *)
Lemma mapM_ok {A B} (f : A -> res B) (l : list A) : (forall x, In x l -> exists y, f x = Ok y) -> exists ys, mapM f l = Ok ys /\ length ys = length l.
Proof.
  induction l as [|x l IH]; intros H; cbn [mapM].
  - exists []. auto.
  - destruct (H x) as (y & ->); [simpl; auto|]. destruct IH as (ys & -> & E); [intros; apply H; simpl; auto|].
    cbn [bind]. exists (y :: ys). simpl. auto.
Qed.
Lemma new_intermediate_succeeds t lg nf sin sout nrep drop : t <> TOtherLayer -> 1 <= nf -> 1 <= sin -> 1 <= sout -> 1 <= nrep -> drop_ok drop ->
  exists l, new_intermediate t lg nf sin sout nrep drop = Ok l /\
    (t = TLinsum -> layer_nfo l = (nf + nf mod 2) / 2).
Proof.
  intros Ht H1 H2 H3 H4 Hd. destruct t; cbn [new_intermediate]; try congruence;
  (rewrite new_layer_ok by (auto; apply no_drop_ok)); cbn [bind]; eexists; (split; [reflexivity|]); intros E; try discriminate; reflexivity.
Qed.

Theorem build_succeeds {V} (g : config) (o : oracle V) :
  assert_valid g = Ok tt -> g_card g = None -> oracle_ok g o -> drop_ok (g_drop g) ->
  (0 <= zval (g_depth g))%Z -> (g_struct g = SBottomUp -> (0 < zval (g_depth g))%Z) ->
  exists E, build g o = Ok E.
Proof.
  intros Ha Hc Ho Hd Hz Hb. destruct (assert_valid_inv g Ha Hc) as ([P0 P5 P3 P1 P4 P2] & Hp & Hl). specialize (Hp Hz).
  assert (Hlt: g_layer g <> TOtherLayer /\ g_struct g <> SOther).
  { unfold assert_valid in Ha. repeat (apply bind_ok in Ha as (? & ?He & Ha)).
    split; intros E; rewrite E in *; discriminate. }
  unfold build. rewrite Ha. cbn [bind].
  assert (Hm: exists m, build_mixing g o = Ok m).
  { unfold build_mixing. destruct (Nat.ltb_spec 1 (nval (g_R g))); [|eauto]. rewrite new_layer_ok by (auto; lia). cbn [bind]. eauto. }
  assert (Hr: exists r, build_root g o = Ok r).
  { unfold build_root. destruct (Nat.ltb_spec 1 (nval (g_K g))); [|eauto]. rewrite new_layer_ok by (auto using no_drop_ok; lia). cbn [bind]. eauto. }
  destruct Hm as (m & Hm). destruct Hr as (r & Hr).
  destruct (ok_leaf g o Ho) as (lf & Elf & _).
  destruct (g_struct g) eqn:Est; [| |tauto].
  - unfold build_top_down.
    destruct (mapM_ok (top_layer g o) (seq 1 (nval (g_depth g)))) as (ls & -> & Elen).
    { intros i Hi. apply in_seq in Hi. unfold top_layer.
      destruct (new_intermediate_succeeds (g_layer g) (o_logits o i) (2 ^ i) (if i <? nval (g_depth g) then nval (g_S g) else nval (g_L g))
        (if i =? 1 then nval (g_K g) else nval (g_S g)) (nval (g_R g)) (g_drop g)) as (l & -> & _); [tauto|apply pow2_pos|destruct (_ <? _); auto|destruct (_ =? _); auto|auto|auto|eauto]. 
 }
    cbn [bind]. rewrite seq_length in Elen.
    assert (Hin: forall n, exists leaf, build_input g o n = Ok leaf).
    { intros n. unfold build_input. rewrite Elf. cbn [bind]. destruct (_ =? _); eauto. }
    destruct (Z.eqb_spec (zval (g_depth g)) 0) as [Ez|Ez].
    + rewrite new_layer_ok by (auto; lia). cbn [bind]. rewrite rev_app_distr. cbn [rev app bind].
      destruct (Hin (layer_nf (LSum {| nf := 1; sin := nval (g_L g); sout := nval (g_K g); nrep := nval (g_R g);
        logits := mkT (sum_weight_shape {| nf := 1; sin := nval (g_L g); sout := nval (g_K g); nrep := nval (g_R g); logits := mkT [] (o_logits o 0) |}) (o_logits o 0) |}))) as (leaf & ->).
      cbn [bind]. rewrite Hm. cbn [bind]. rewrite Hr. cbn [bind]. eauto.
    + cbn [bind]. destruct (rev ls) as [|l ls'] eqn:Er.
      { exfalso. assert (length (rev ls) = 0) by (rewrite Er; auto). rewrite rev_length, Elen in H. unfold nval in H. lia. }
      cbn [bind]. destruct (Hin (layer_nf l)) as (leaf & ->). cbn [bind]. rewrite Hm. cbn [bind]. rewrite Hr. cbn [bind]. eauto.
  - unfold build_bottom_up. specialize (Hb eq_refl). specialize (Hl eq_refl).
    assert (B: forall k i n, 2 ^ k <= n -> exists ls, bottom_layers g o k i n = Ok ls /\ length ls = k).
    { induction k as [|k IH]; intros i n Hn; cbn [bottom_layers]; [exists []; auto|].
      assert (1 <= n) by (pose proof (pow2_pos (S k)); lia).
      destruct (new_intermediate_succeeds (g_layer g) (o_logits o i) n (if i =? 0 then nval (g_L g) else nval (g_S g))
        (nval (g_S g)) (nval (g_R g)) (g_drop g)) as (l & -> & El); [tauto|auto|destruct (_ =? _); auto|auto|auto|auto|].
      cbn [bind]. destruct (IH (S i) (layer_nfo l)) as (ls & -> & Els).
      { rewrite (El Hl). apply Nat.div_le_lower_bound; [lia|]. rewrite Nat.pow_succ_r' in Hn. lia. }
      cbn [bind]. exists (l :: ls). simpl. auto. }
    destruct (B (nval (g_depth g)) 0 (nval (g_F g)) Hp) as (ls & Els & Elen). rewrite Els. cbn [bind].
    destruct (Z.eqb_spec (zval (g_depth g)) 0) as [Ez|Ez]; [lia|]. cbn [bind].
    assert (Hdp: 0 < nval (g_depth g)) by (unfold nval; lia).
    destruct (Nat.ltb_spec 0 (nval (g_depth g))); [|lia]. cbn [guard bind].
    destruct (bottom_layers_ok g o Ho ltac:(split; auto) Hl (nval (g_depth g)) 0 _ ls Hp Hdp Els) as (D & A1 & A2 & l & ls' & E1 & E2).
    rewrite E1. cbn [bind]. rewrite E2. rewrite new_layer_ok by (auto using no_drop_ok; lia). cbn [bind].
    rewrite Elf. cbn [bind]. rewrite Hm. cbn [bind]. rewrite Hr. cbn [bind]. eauto.
Qed.

(** * When sampling and likelihood use the same groups *)
(** Bottom-up networks always; top-down networks with one repetition if there is one group or every
    group is a single feature; with several repetitions if some group has several features. *)
Definition consistent (g : config) : Prop :=
  match g_struct g with
  | STopDown => if nval (g_R g) =? 1 then nval (g_depth g) = 0 \/ nval (g_F g) = 2 ^ nval (g_depth g)
                else nval (g_F g) <> 2 ^ nval (g_depth g)
  | _ => True
  end.
Lemma build_input_layer {V} (g : config) (o : oracle V) E : oracle_ok g o -> sizes_ok g -> g_struct g = STopDown -> build g o = Ok E ->
  exists lf, e_leaf E = (if nval (g_R g) =? 1 then LSimple lf (2 ^ nval (g_depth g)) (o_perm o 0) (argsort (o_perm o 0))
     else LFact lf (2 ^ nval (g_depth g)) (make_scopes (nval (g_F g)) (2 ^ nval (g_depth g)) (nval (g_R g)) (o_sizes o) (o_perm o))).
Proof.
  intros Ho Hs Hst H. unfold build in H. apply bind_ok in H as ([] & Ha & H). rewrite Hst in H.
  pose proof (build_top_down_inv g o Ho Hs E Hst H) as (_ & _ & _ & _ & _ & Hlo).
  unfold build_top_down in H. apply bind_ok in H as (ls0 & H0 & H). apply bind_ok in H as (ls & H1 & H). apply bind_ok in H as (l & H2 & H).
  apply bind_ok in H as (leaf & H3 & H). apply bind_ok in H as (m & H4 & H). apply bind_ok in H as (r & H5 & H).
  inversion H; subst E; clear H. unfold leaf_out in Hlo. cbn [e_leaf e_F] in *. unfold build_input in H3.
  apply bind_ok in H3 as (lf & _ & H3). exists lf. destruct (nval (g_R g) =? 1); inversion H3; subst leaf; rewrite Hlo; auto.
Qed.
Theorem groups_agree_build {V} (g : config) (o : oracle V) E : g_card g = None -> oracle_ok g o -> build g o = Ok E ->
  consistent g -> groups_agree E.
Proof.
  intros Hc Ho H Hco. pose proof (build_inv g o E Hc Ho H) as (HE & EF & _ & ER & _).
  assert (Hs: sizes_ok g) by (pose proof H as H'; unfold build in H'; apply bind_ok in H' as ([] & Ha & _); apply (assert_valid_inv g Ha Hc)).
  unfold consistent in Hco. destruct (g_struct g) eqn:Est.
  - destruct (build_input_layer g o E Ho Hs Est H) as (lf & El). intros r f Hr Hf. unfold sgrp, fgrp. rewrite El.
    destruct (Nat.eqb_spec (nval (g_R g)) 1) as [E1|E1].
    + unfold simple_sgrp, simple_grp. pose proof (ok_perm g o Ho 0) as Hp. unfold perm_len, groups_of in Hp. rewrite Est, E1 in Hp.
      cbn [Nat.eqb] in Hp. specialize (Hp Nat.lt_0_1). rewrite EF in *.
      destruct (argsort_nth _ _ f Hp) as [L _]; [lia|]. set (p := nth f (argsort (o_perm o 0)) 0) in *.
      assert (T: nval (g_F g) + simple_dummy (nval (g_F g)) (2 ^ nval (g_depth g)) = simple_card (nval (g_F g)) (2 ^ nval (g_depth g)) * 2 ^ nval (g_depth g)).
      { apply simple_total. apply pow2_pos. }
      destruct Hco as [Hd|Hd].
      * rewrite Hd in *. change (2 ^ 0) with 1 in *. rewrite Nat.mod_1_r. symmetry. apply Nat.div_small. lia.
      * rewrite <- Hd in *. pose proof (so_F g Hs).
        assert (simple_card (nval (g_F g)) (nval (g_F g)) = 1).
        { unfold simple_card, ceil_div. replace (nval (g_F g) + (nval (g_F g) - 1)) with (1 * nval (g_F g) + (nval (g_F g) - 1)) by lia.
          rewrite Nat.div_add_l by lia. rewrite (Nat.div_small (nval (g_F g) - 1)) by lia. lia. }
        rewrite H1 in *. rewrite Nat.div_1_r. apply Nat.mod_small. lia.
    + unfold fact_grp. rewrite EF. destruct (Nat.eqb_spec (nval (g_F g)) (2 ^ nval (g_depth g))); [contradiction|auto].
  - pose proof (eo_ll E HE) as Hll. intros r f Hr Hf. unfold sgrp, fgrp.
    unfold build in H. apply bind_ok in H as ([] & Ha & H). rewrite Est in H. unfold build_bottom_up in H.
    apply bind_ok in H as (ls & H0 & H). apply bind_ok in H as (ls1 & _ & H). apply bind_ok in H as ([] & Hg0 & H).
    apply bind_ok in H as (l & H2 & H). apply bind_ok in H as (rs & H3 & H). apply bind_ok in H as (lf0 & H3' & H).
    apply bind_ok in H as (m & H4 & H). apply bind_ok in H as (rr & H5 & H). inversion H; subst E. reflexivity.
  - unfold build in H. apply bind_ok in H as ([] & Ha & H). rewrite Est in H. discriminate.
Qed.
