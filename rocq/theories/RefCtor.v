(** Exactly which accepted configurations can be constructed; groups of the single-repetition leaf
    layer; permutations of bottom-up networks. *)
From Coq Require Import List Arith Lia Bool ZArith Reals Lra Permutation.
Import ListNotations.
From Verif Require Import Base RSum Num Tensor Prob Layers Circuit Net RefFwd RefSample RefLaw Leaf Perm RefLeaf RefLeafS TypeChecks Einet RefNet RefEinet RefEinetS RefScopes Build RefBuild Spec RefSpec RefMore.
Local Arguments Nat.div : simpl never.
Local Arguments Nat.modulo : simpl never.
Local Arguments Nat.sub : simpl never.
Local Arguments Nat.mul : simpl never.
Local Arguments Nat.add : simpl never.
Local Arguments Nat.pow : simpl never.

(** * Construction *)
Lemma new_layer_drop ws lg nf sin sout nrep drop L : new_layer ws lg nf sin sout nrep drop = Ok L -> drop_ok drop.
Proof.
  unfold new_layer. intros H. apply bind_ok in H as ([] & _ & H). apply bind_ok in H as ([] & _ & H).
  apply bind_ok in H as ([] & _ & H). apply bind_ok in H as ([] & _ & H). apply bind_ok in H as (d & Hd & H).
  apply bind_ok in H as ([] & Hb & _). unfold check_valid in Hd.
  assert (Hv: drop <> VNone) by (intros ->; discriminate).
  assert (G: (_ <- check_type drop TFloat ;; _ <- check_bounds drop TFloat (BFloat (Fin 0)) (BFloat (Fin 1)) ;; conv_value TFloat drop) = Ok d)
    by (destruct drop; auto; congruence).
  apply bind_ok in G as ([] & Ht & G). apply bind_ok in G as ([] & Hc & G).
  apply check_type_is_num in Ht; auto. destruct (conv_value_spec _ _ _ Ht) as (d' & E & Hn).
  assert (d' = d) by congruence. subst d'. rewrite (is_num_numval _ _ _ Hn) in Hb.
  unfold bernoulli_ok in Hb. destruct (numval drop) as [x| | |] eqn:En; try discriminate.
  exists x. split; auto. destruct (Rle_dec 0 x); [|discriminate].
  unfold check_bounds in Hc. apply bind_ok in Hc as ([] & _ & Hc). cbn in Hc.
  destruct (Req_EM_T 1 0); [lra|]. cbn in Hc. rewrite En in Hc. cbn in Hc. destruct (Rlt_dec x 1); [lra|discriminate].
Qed.
Lemma new_intermediate_drop t lg nf sin sout nrep drop l : new_intermediate t lg nf sin sout nrep drop = Ok l -> t <> TEinsum -> drop_ok drop.
Proof. destruct t; cbn [new_intermediate]; intros H Ht; try congruence; try discriminate; apply bind_ok in H as (L & HL & _); eapply new_layer_drop; eauto. Qed.

(** The dropout rate reaches some layer. *)
Definition drop_used (g : config) : Prop :=
  ~ (g_layer g = TEinsum /\ (0 < zval (g_depth g))%Z /\ nval (g_R g) = 1).
Definition constructible (g : config) : Prop :=
  (0 <= zval (g_depth g))%Z /\ (g_struct g = SBottomUp -> (0 < zval (g_depth g))%Z) /\ (drop_used g -> drop_ok (g_drop g)).

Lemma build_mixing_drop {V} g (o : oracle V) m : build_mixing g o = Ok m -> (1 < nval (g_R g))%nat -> drop_ok (g_drop g).
Proof.
  unfold build_mixing. intros H HR. destruct (Nat.ltb_spec 1 (nval (g_R g))); [|lia]. apply bind_ok in H as (L & HL & _).
  eapply new_layer_drop; eauto.
Qed.
Lemma constructible_only {V} g (o : oracle V) E : g_card g = None -> build g o = Ok E -> constructible g.
Proof.
  intros Hc H. unfold build in H. apply bind_ok in H as ([] & Ha & H). destruct (assert_valid_inv g Ha Hc) as (Hs & _ & Hb).
  pose proof (so_R g Hs) as HR. unfold constructible, drop_used. destruct (g_struct g) eqn:Est; [| |discriminate].
  - unfold build_top_down in H. apply bind_ok in H as (ls0 & H0 & H). apply bind_ok in H as (ls & H1 & H).
    apply bind_ok in H as (l & H2 & H). apply bind_ok in H as (lf & _ & H). apply bind_ok in H as (m & Hm & H).
    assert (D: (0 <= zval (g_depth g))%Z).
    { destruct (Z.ltb_spec (zval (g_depth g)) 0); auto. exfalso. replace (nval (g_depth g)) with 0 in H0 by (unfold nval; lia).
      cbn [seq mapM] in H0. inversion H0; subst ls0. destruct (Z.eqb_spec (zval (g_depth g)) 0); [lia|]. inversion H1; subst ls. discriminate. }
    split; auto. split; [discriminate|]. intros U.
    destruct (Z.eqb_spec (zval (g_depth g)) 0) as [Ez|Ez].
    { apply bind_ok in H1 as (L & HL & _). eapply new_layer_drop; eauto. }
    destruct (Nat.eq_dec (nval (g_R g)) 1) as [ER|ER]; [|eapply build_mixing_drop; eauto; lia].
    destruct (nval (g_depth g)) as [|k] eqn:Ed; [unfold nval in Ed; lia|]. cbn [seq mapM] in H0. apply bind_ok in H0 as (l1 & Hl1 & _).
    unfold top_layer in Hl1. eapply new_intermediate_drop; [exact Hl1|]. intros E1. apply U. split; auto. split; [lia|auto].
  - assert (D: (0 < zval (g_depth g))%Z).
    { unfold build_bottom_up in H. apply bind_ok in H as (ls & _ & H). apply bind_ok in H as (ls1 & _ & H). apply bind_ok in H as ([] & Hg & H).
      destruct (Nat.ltb_spec 0 (nval (g_depth g))); [unfold nval in *; lia|discriminate]. }
    split; [lia|]. split; [auto|]. intros U. unfold build_bottom_up in H. apply bind_ok in H as (ls & H0 & H).
    destruct (nval (g_depth g)) as [|k] eqn:Ed; [unfold nval in Ed; lia|]. cbn [bottom_layers] in H0. apply bind_ok in H0 as (l1 & Hl1 & _).
    eapply new_intermediate_drop; [exact Hl1|]. rewrite (Hb eq_refl). discriminate.
Qed.

Definition with_drop (g : config) (d : pyval) : config :=
  mkConfig (g_F g) (g_C g) (g_S g) (g_L g) (g_R g) (g_K g) (g_depth g) d (g_leaf g) (g_card g) (g_layer g) (g_struct g).
Theorem build_iff {V} (g : config) (o : oracle V) : assert_valid g = Ok tt -> g_card g = None -> oracle_ok g o ->
  (exists E, build g o = Ok E) <-> constructible g.
Proof.
  intros Ha Hc Ho. split.
  - intros (E & H). eapply constructible_only; eauto.
  - intros (Hd & Hb & Hu).
    assert (DU: drop_used g \/ ~ drop_used g).
    { unfold drop_used. destruct (g_layer g); try (left; intros (X & _); discriminate).
      - destruct (Z.ltb_spec 0 (zval (g_depth g))); [|left; intros (_ & X & _); lia].
        destruct (Nat.eq_dec (nval (g_R g)) 1); [|left; intros (_ & _ & X); auto]. right. intros X. apply X. auto. }
    destruct DU as [U|U]; [apply build_succeeds; auto|].
    assert (X: g_layer g = TEinsum /\ (0 < zval (g_depth g))%Z /\ nval (g_R g) = 1).
    { unfold drop_used in U. destruct (g_layer g); try (exfalso; apply U; intros (Y & _); discriminate).
      split; auto. destruct (Z.ltb_spec 0 (zval (g_depth g))); [|exfalso; apply U; intros (_ & Y & _); lia].
      split; auto. destruct (Nat.eq_dec (nval (g_R g)) 1); auto. exfalso; apply U; intros (_ & _ & Y); auto. }
    destruct X as (X1 & X2 & X3).
    assert (Ha': assert_valid (with_drop g no_drop) = Ok tt).
    { pose proof Ha as Ha'. unfold assert_valid in Ha' |- *. cbn [with_drop g_F g_C g_S g_L g_R g_K g_depth g_drop g_leaf g_card g_layer g_struct].
      repeat (apply bind_ok in Ha' as (? & ?He & Ha')).
      rewrite He, He0, He1, He2, He3, He4, He5. cbn [bind].
      replace (check_valid no_drop TFloat (BFloat (Fin 0)) (BFloat (Fin 1)) true) with (Ok no_drop).
      2:{ symmetry. unfold no_drop. apply check_valid_zero_lower_float; lra. }
      cbn [bind]. rewrite He7. cbn [bind]. rewrite He8. cbn [bind]. rewrite He9. cbn [bind]. rewrite He10. cbn [bind]. rewrite He11. cbn [bind]. rewrite He12. cbn [bind]. rewrite He13. cbn [bind].
      rewrite Ha'. destruct x13; auto. }
    destruct (build_succeeds (with_drop g no_drop) o Ha' Hc) as (E & HE); auto.
    { destruct Ho as [A B C D F G H]. split; auto. }
    { apply no_drop_ok. }
    exists E. unfold build in HE |- *. rewrite Ha, Ha' in *. cbn [bind] in *. cbn [with_drop g_struct] in HE.
    destruct (g_struct g) eqn:Est; [| |auto].
    + rewrite <- HE. unfold build_top_down. cbn [with_drop g_F g_C g_S g_L g_R g_K g_depth g_drop g_leaf g_card g_layer g_struct].
      destruct (Z.eqb_spec (zval (g_depth g)) 0); [lia|].
      replace (mapM (top_layer (with_drop g no_drop) o) (seq 1 (nval (g_depth g)))) with (mapM (top_layer g o) (seq 1 (nval (g_depth g)))).
      2:{ generalize (seq 1 (nval (g_depth g))) as xs. induction xs as [|x xs IH]; [reflexivity|]. cbn [mapM]. rewrite IH. f_equal.
          unfold top_layer. cbn [with_drop g_F g_C g_S g_L g_R g_K g_depth g_drop g_leaf g_card g_layer g_struct]. rewrite X1. reflexivity. }
      unfold build_input, build_mixing, build_root. cbn [with_drop g_F g_C g_S g_L g_R g_K g_depth g_drop g_leaf g_card g_layer g_struct].
      rewrite X3. reflexivity.
    + destruct (assert_valid_inv g Ha Hc) as (_ & _ & Hl). rewrite (Hl Est) in X1. discriminate.
Qed.

(** * Groups of the single-repetition leaf layer *)
Definition group_size (F : nat) (grp : nat -> nat) (d : nat) : nat := length (filter (fun f => grp f =? d) (seq 0 F)).
Lemma group_positions F Fo pl d : 0 < Fo -> 0 < F -> is_perm pl (F + simple_dummy F Fo) -> d < Fo ->
  group_size F (simple_grp F Fo pl) d <= simple_card F Fo /\
  (F mod Fo = 0 -> group_size F (simple_grp F Fo pl) d = F / Fo).
Proof.
  intros H1 H2 Hp Hd. pose proof (simple_card_pos F Fo H1 H2) as C. pose proof (simple_total F Fo H1) as T.
  set (cd := simple_card F Fo) in *. set (dm := simple_dummy F Fo) in *.
  assert (U: group_size F (simple_grp F Fo pl) d <= cd).
  { unfold group_size. set (l := filter _ _).
    assert (N: NoDup (map (fun f => nth f (argsort pl) 0) l)).
    { apply map_nodup_in; [|apply NoDup_filter, seq_NoDup]. intros a b Ha Hb E. apply filter_In in Ha as [Ha _], Hb as [Hb _].
      apply in_seq in Ha, Hb. eapply (is_perm_inj (argsort pl) (F + dm)); [apply argsort_perm; auto|lia|lia|exact E]. }
    assert (I: incl (map (fun f => nth f (argsort pl) 0) l) (seq (d * cd) cd)).
    { intros v Hv. apply in_map_iff in Hv as (f & <- & Hf). apply filter_In in Hf as [_ Hf]. apply Nat.eqb_eq in Hf.
      unfold simple_grp in Hf. fold cd in Hf. apply in_seq. pose proof (Nat.div_mod (nth f (argsort pl) 0) cd ltac:(lia)).
      pose proof (Nat.mod_upper_bound (nth f (argsort pl) 0) cd ltac:(lia)). nia. }
    pose proof (NoDup_incl_length N I) as L. rewrite map_length, seq_length in L. exact L. }
  split; [exact U|]. intros Hdiv.
  assert (Ecd: cd = F / Fo).
  { unfold cd, simple_card, ceil_div. pose proof (Nat.div_mod F Fo ltac:(lia)) as E. rewrite Hdiv, Nat.add_0_r in E.
    rewrite E at 1. rewrite (Nat.mul_comm Fo), Nat.div_add_l by lia. rewrite (Nat.div_small (Fo - 1)) by lia. lia. }
  assert (Edm: dm = 0).
  { pose proof (Nat.div_mod F Fo ltac:(lia)) as E. rewrite Hdiv, Nat.add_0_r in E. rewrite Ecd in T. nia. }
  rewrite <- Ecd. apply Nat.le_antisymm; [exact U|].
  assert (N: NoDup (map (fun p => nth p pl 0) (seq (d * cd) cd))).
  { apply map_nodup_in; [|apply seq_NoDup]. intros a b Ha Hb E. apply in_seq in Ha, Hb. eapply (is_perm_inj pl (F + dm)); [exact Hp|nia|nia|exact E]. }
  assert (I: incl (map (fun p => nth p pl 0) (seq (d * cd) cd)) (filter (fun f => simple_grp F Fo pl f =? d) (seq 0 F))).
  { intros v Hv. apply in_map_iff in Hv as (p & <- & Hi). apply in_seq in Hi. assert (Hpl: p < F + dm) by nia.
    apply filter_In. split.
    - apply in_seq. pose proof (is_perm_lt pl _ p Hp Hpl). lia.
    - apply Nat.eqb_eq. unfold simple_grp. rewrite (argsort_left _ _ _ Hp Hpl). fold cd.
      symmetry. apply (Nat.div_unique p cd d (p - d * cd)); lia. }
  pose proof (NoDup_incl_length N I) as L. rewrite map_length, seq_length in L. exact L.
Qed.
(** With as many dummy features as a group holds, a permutation can leave a group without features. *)
Lemma empty_group F Fo : 0 < Fo -> 0 < F -> simple_card F Fo <= simple_dummy F Fo ->
  is_perm (seq 0 (F + simple_dummy F Fo)) (F + simple_dummy F Fo) /\
  group_size F (simple_grp F Fo (seq 0 (F + simple_dummy F Fo))) (Fo - 1) = 0.
Proof.
  intros H1 H2 H3. pose proof (simple_card_pos F Fo H1 H2) as C. pose proof (simple_total F Fo H1) as T.
  set (cd := simple_card F Fo) in *. set (dm := simple_dummy F Fo) in *.
  assert (Hp: is_perm (seq 0 (F + dm)) (F + dm)) by apply Permutation_refl. split; [exact Hp|].
  unfold group_size. destruct (filter _ _) as [|f l] eqn:Ef; [reflexivity|]. exfalso.
  assert (I: In f (filter (fun f => simple_grp F Fo (seq 0 (F + dm)) f =? Fo - 1) (seq 0 F))) by (rewrite Ef; left; auto).
  apply filter_In in I as [I1 I2]. apply in_seq in I1. apply Nat.eqb_eq in I2. unfold simple_grp in I2. fold cd in I2.
  assert (E: nth f (argsort (seq 0 (F + dm))) 0 = f).
  { pose proof (argsort_left _ _ f Hp ltac:(lia)) as A. rewrite seq_nth in A by lia. exact A. }
  rewrite E in I2. pose proof (Nat.div_mod f cd ltac:(lia)). rewrite I2 in H. nia.
Qed.

(** * The permutations of a bottom-up network *)
Section Perms.
Context {V : Type}.
(** The forward pass moves feature [f] to position [pos r f]; sampling reads the leaf index of
    feature [f] from the same position. *)
Theorem perms_inverse (E : einet V) (p q : nat -> list nat) : e_perm E = Some (p, q) ->
  (forall r, r < e_R E -> is_perm (p r) (e_F E) /\ q r = argsort (p r)) ->
  exists pos : nat -> nat -> nat,
   (forall r f, r < e_R E -> f < e_F E -> pos r f < e_F E) /\
   (forall r f f', r < e_R E -> f < e_F E -> f' < e_F E -> pos r f = pos r f' -> f = f') /\
   (forall N L x, shape x = [N; e_F E; L; e_R E] -> exists y, permute_reps (buffer (e_R E) (e_F E) p) (e_R E) x = Ok y /\ shape y = [N; e_F E; L; e_R E] /\
      forall n f l r, n < N -> f < e_F E -> l < L -> r < e_R E -> get y [n; pos r f; l; r] = get x [n; f; l; r]) /\
   (forall N (c : sctx), shape (c_out c) = [N; e_F E] -> shape (c_rep c) = [N] -> (forall n, n < N -> get (c_rep c) [n] < e_R E) ->
      exists c', unpermute E c = Ok c' /\ shape (c_out c') = [N; e_F E] /\ c_rep c' = c_rep c /\
      forall n f, n < N -> f < e_F E -> get (c_out c') [n; f] = get (c_out c) [n; pos (get (c_rep c) [n]) f]).
Proof.
  intros Ep Hpq. exists (fun r f => nth f (argsort (p r)) 0). split; [|split; [|split]].
  - intros r f Hr Hf. apply (argsort_nth _ _ f (proj1 (Hpq r Hr)) Hf).
  - intros r f f' Hr Hf Hf' He. destruct (argsort_nth _ _ f (proj1 (Hpq r Hr)) Hf) as [_ A]. destruct (argsort_nth _ _ f' (proj1 (Hpq r Hr)) Hf') as [_ B]. congruence.
  - intros N L x Sx.
    assert (G: forall k, k <= e_R E -> exists y, permute_reps (buffer (e_R E) (e_F E) p) k x = Ok y /\ shape y = [N; e_F E; L; e_R E] /\
      forall n d l r, n < N -> d < e_F E -> l < L -> r < e_R E -> get y [n; d; l; r] = if r <? k then get x [n; nth d (p r) 0; l; r] else get x [n; d; l; r]).
    { induction k as [|k IH]; intros Hk.
      - exists x. split; auto.
      - destruct IH as (y & Ey & Sy & Gy); [lia|]. cbn [permute_reps]. rewrite Ey. cbn [bind].
        unfold permute_rep, select, buffer, size. cbn [shape nth]. rewrite Sy. cbn [nth].
        destruct (Nat.ltb_spec k (e_R E)) as [Hkr|]; [|lia]. cbn [remove_nth bind].
        unfold index_dim, size. cbn [shape nth].
        replace (forallb _ _) with true.
        2:{ symmetry. apply forallb_forall. intros i Hi. apply in_seq in Hi. cbn [get insert_nth hd nth]. apply Nat.ltb_lt.
            apply is_perm_lt; [apply Hpq; auto|lia]. }
        cbn [bind shape set_nth]. rewrite eqb_list_refl. cbn [guard bind]. eexists. split; [reflexivity|]. split; [reflexivity|].
        intros n d l r Hn Hd Hl Hr. cbn [get nth remove_nth insert_nth set_nth hd].
        destruct (Nat.eqb_spec r k) as [->|Hne].
        + destruct (Nat.ltb_spec k (S k)) as [_|]; [|lia].
          assert (Hd': nth d (p k) 0 < e_F E) by (apply is_perm_lt; [apply Hpq; auto|auto]).
          pose proof (Gy n (nth d (p k) 0) l k Hn Hd' Hl Hr) as G. destruct (Nat.ltb_spec k k); [lia|]. exact G.
        + pose proof (Gy n d l r Hn Hd Hl Hr) as G. destruct (Nat.ltb_spec r (S k)), (Nat.ltb_spec r k); try lia; exact G. }
    destruct (G (e_R E) (le_n _)) as (y & Ey & Sy & Gy). exists y. split; auto. split; auto.
    intros n f l r Hn Hf Hl Hr. destruct (argsort_nth _ _ f (proj1 (Hpq r Hr)) Hf) as [A B]. rewrite Gy by auto.
    destruct (Nat.ltb_spec r (e_R E)); [|lia]. rewrite B. reflexivity.
  - intros N c So Sr Hr. unfold unpermute. rewrite Ep. destruct c as [cn out rep cm ct]. cbn [c_n c_out c_rep set_out c_mpe c_tsum] in *.
    destruct out as [so go], rep as [sr gr]. cbn [shape get] in *. subst so sr.
    assert (PQ: forall r f, r < e_R E -> f < e_F E -> nth f (q r) 0 < e_F E).
    { intros r f Hr' Hf. destruct (Hpq r Hr') as [Hp ->]. apply (argsort_nth _ _ f Hp Hf). }
    unfold index_dim, buffer, size. cbn [shape nth set_nth get].
    replace (forallb _ _) with true.
    2:{ symmetry. apply forallb_forall. intros i Hi. apply in_seq in Hi. apply Nat.ltb_lt. apply Hr. lia. }
    cbn [bind hd nth set_nth]. rewrite gather_ok.
    2:{ fits. }
    2:{ cbn [shape]. intros idx Hi. inbs. cbn [get hd nth set_nth]. unfold size. cbn [shape nth]. apply PQ; auto. }
    cbn [bind]. eexists. split; [reflexivity|]. cbn [c_out c_rep shape get]. split; [reflexivity|]. split; [reflexivity|].
    intros n f Hn Hf. cbn [hd nth set_nth]. destruct (Hpq (gr [n]) (Hr n Hn)) as [_ Eq]. cbn. rewrite Eq. reflexivity.
Qed.
End Perms.
