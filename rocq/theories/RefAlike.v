(** Models of one configuration and structure have layers of the same sizes; their logits are related like the ones they are built from. *)
From Coq Require Import List Arith Lia Bool ZArith Reals Lra FunctionalExtensionality.
Import ListNotations.
From Verif Require Import Base RSum Num Tensor Prob Layers Circuit Net RefFwd Leaf Perm RefLeaf TypeChecks Einet RefNet RefEinet RefEinetS Build RefBuild.
Local Open Scope R_scope.

(** * Specification *)
(** Sum nodes of one repetition that a class output depends on. *)
Fixpoint halvings (d n : nat) : nat :=
  match d with O => n | S d' => let m := ((n + 1) / 2)%nat in (m + halvings d' m)%nat end.
Definition sum_nodes (g : config) : nat :=
  let D := nval (g_depth g) in
  match g_struct g with
  | SBottomUp => halvings D (nval (g_F g))
  | _ => match D with
         | O => 1
         | _ => match g_layer g with TLinsum2 => 2 ^ (D + 1) - 2 | _ => 2 ^ D - 1 end
         end
  end%nat.
Definition lrel : Type := (list nat -> num) -> (list nat -> num) -> Prop.
(** Two models with the same structure and related logits. *)
Record alike {V} (Q : lrel) (o o' : oracle V) : Prop := {
  wi_sizes : o_sizes o' = o_sizes o;
  wi_perm : forall r, o_perm o' r = o_perm o r;
  wi_logits : forall i, Q (o_logits o i) (o_logits o' i);
  wi_top : Q (o_top o) (o_top o');
  wi_mix : Q (o_mix o) (o_mix o') }.

(** * Layers *)
Definition close (Q : lrel) (a b : slay) : Prop :=
  nf a = nf b /\ sin a = sin b /\ sout a = sout b /\ nrep a = nrep b /\ Q (get (logits a)) (get (logits b)).
Definition close_layer (Q : lrel) (a b : layer) : Prop :=
  match a, b with
  | LEin L, LEin L' | LLin L, LLin L' | LLin2 L, LLin2 L' | LSum L, LSum L' => close Q L L'
  | LRoot D, LRoot D' => D = D'
  | _, _ => False
  end.
Definition close_opt (Q : lrel) (a b : option slay) : Prop :=
  match a, b with Some L, Some L' => close Q L L' | None, None => True | _, _ => False end.
Definition layer_sums (l : layer) : nat :=
  match l with LEin L => einsum_features_out L | LLin L => linsum_features_out L | LLin2 L | LSum L => nf L | LRoot _ => 0 end.
(** * Construction *)
Section Build.
Context {V : Type}.
Lemma new_layer_close (Q : lrel) ws lg lg' nf0 sin0 sout0 nrep0 drop L L' : Q lg lg' ->
  new_layer ws lg nf0 sin0 sout0 nrep0 drop = Ok L -> new_layer ws lg' nf0 sin0 sout0 nrep0 drop = Ok L' -> close Q L L' /\ nf L = nf0.
Proof.
  intros Hw H H'. unfold new_layer in H, H'.
  repeat match type of H with bind ?m _ = Ok _ => destruct m; cbn [bind] in H, H'; [|discriminate H] end.
  injection H as <-. injection H' as <-. split; [|reflexivity]. repeat split; cbn; auto.
Qed.
(** Sum nodes of a new layer on [n] inputs *)
Definition new_sums (t : ltype) (n : nat) : nat := match t with TEinsum => n / 2 | TLinsum2 => n | _ => (n + n mod 2) / 2 end%nat.
Lemma new_intermediate_close (Q : lrel) t lg lg' nf0 sin0 sout0 nrep0 drop l l' : Q lg lg' ->
  new_intermediate t lg nf0 sin0 sout0 nrep0 drop = Ok l -> new_intermediate t lg' nf0 sin0 sout0 nrep0 drop = Ok l' ->
  close_layer Q l l' /\ layer_sums l = new_sums t nf0 /\ (t = TLinsum -> layer_nfo l = ((nf0 + nf0 mod 2) / 2)%nat).
Proof.
  intros Hc H H'. destruct t; cbn [new_intermediate] in H, H'; try discriminate H;
    apply bind_ok in H as (L & H & E); apply bind_ok in H' as (L' & H' & E'); injection E as <-; injection E' as <-; cbn [close_layer];
    destruct (new_layer_close _ _ _ _ _ _ _ _ _ _ _ Hc H H') as (H1 & H2); split; auto; cbn [layer_sums new_sums layer_nfo];
    unfold linsum_features_out, linsum_pad, einsum_features_out; rewrite H2; split; auto; discriminate.
Qed.
Lemma close_nf d l l' : close_layer d l l' -> layer_nf l = layer_nf l'.
Proof. destruct l, l'; cbn; try tauto; unfold close; tauto. Qed.
Lemma close_nfo d l l' : close_layer d l l' -> layer_nfo l = layer_nfo l'.
Proof.
  destruct l, l'; cbn; try tauto; unfold close, einsum_features_out, linsum_features_out, linsum_pad; intros H; destruct H as (-> & _); reflexivity.
Qed.
Lemma mapM_close {A B} (P : B -> B -> Prop) (Q : B -> nat) (q : A -> nat) (f f' : A -> res B) l b b' :
  (forall x y y', f x = Ok y -> f' x = Ok y' -> P y y' /\ Q y = q x) -> mapM f l = Ok b -> mapM f' l = Ok b' -> Forall2 P b b' /\ map Q b = map q l.
Proof.
  intros Hf. revert b b'. induction l as [|x l IH]; intros b b' H H'; cbn [mapM] in H, H'.
  - injection H as <-. injection H' as <-. split; constructor.
  - apply bind_ok in H as (y & Hy & H). apply bind_ok in H as (r & Hr & H). injection H as <-.
    apply bind_ok in H' as (y' & Hy' & H'). apply bind_ok in H' as (r' & Hr' & H'). injection H' as <-.
    destruct (Hf _ _ _ Hy Hy') as (H1 & H2). destruct (IH _ _ Hr Hr') as (H3 & H4). split; [constructor; eauto|cbn; congruence].
Qed.
Lemma half_pad n : ((n + n mod 2) / 2 = (n + 1) / 2)%nat.
Proof. apply div2_half. Qed.
Lemma bottom_close (Q : lrel) g (o o' : oracle V) : alike Q o o' -> g_layer g = TLinsum -> forall k i n ls ls',
  bottom_layers g o k i n = Ok ls -> bottom_layers g o' k i n = Ok ls' ->
  Forall2 (close_layer Q) ls ls' /\
  (list_sum (map layer_sums ls) + match rev ls with [] => n | l :: _ => layer_nfo l end)%nat = halvings k n.
Proof.
  intros Hw Ht. induction k as [|k IH]; intros i n ls ls' H H'; cbn [bottom_layers] in H, H'.
  - injection H as <-. injection H' as <-. split; [constructor|reflexivity].
  - apply bind_ok in H as (l & Hl & H). apply bind_ok in H as (r & Hr & H). injection H as <-.
    apply bind_ok in H' as (l' & Hl' & H'). apply bind_ok in H' as (r' & Hr' & H'). injection H' as <-.
    destruct (new_intermediate_close Q _ _ _ _ _ _ _ _ _ _ (wi_logits _ _ _ Hw i) Hl Hl') as (H1 & H2 & H3). specialize (H3 Ht).
    rewrite <- (close_nfo _ _ _ H1) in Hr'. destruct (IH _ _ _ _ Hr Hr') as (H4 & H5). split; [constructor; auto|].
    rewrite Ht in H2. cbn [new_sums] in H2. rewrite H3, half_pad in H5. rewrite half_pad in H2, H3.
    cbn [map halvings]. change (list_sum (layer_sums l :: map layer_sums r)) with (layer_sums l + list_sum (map layer_sums r))%nat.
    rewrite <- H5, H2. rewrite <- Nat.add_assoc. f_equal. f_equal. cbn [rev]. destruct (rev r); cbn; auto.
Qed.
Lemma rev_close {A} (P : A -> A -> Prop) a b : Forall2 P a b -> Forall2 P (rev a) (rev b).
Proof. induction 1; cbn; [constructor|]. apply Forall2_app; auto. Qed.
Lemma list_sum_rev l : list_sum (rev l) = list_sum l.
Proof. induction l as [|a l IH]; auto. cbn [rev]. rewrite list_sum_app, IH. change (list_sum [a]) with (a + 0)%nat. change (list_sum (a :: l)) with (a + list_sum l)%nat. lia. Qed.
Lemma pow_sum D : list_sum (map (fun i => 2 ^ i)%nat (seq 1 D)) = (2 ^ (D + 1) - 2)%nat.
Proof.
  induction D as [|D IH]; auto. rewrite seq_S, map_app, list_sum_app, IH. cbn [map list_sum fold_right].
  replace (S D + 1)%nat with (S (S D)) by lia. replace (D + 1)%nat with (S D) by lia. replace (1 + D)%nat with (S D) by lia.
  cbn [Nat.pow]. pose proof (Nat.pow_nonzero 2 D ltac:(lia)). lia.
Qed.
Lemma pow_half_sum D : list_sum (map (fun i => 2 ^ i / 2)%nat (seq 1 D)) = (2 ^ D - 1)%nat.
Proof.
  induction D as [|D IH]; auto. rewrite seq_S, map_app, list_sum_app, IH. cbn [map list_sum fold_right].
  replace (1 + D)%nat with (S D) by lia. replace (2 ^ S D)%nat with (2 ^ D * 2)%nat by (cbn; lia). rewrite Nat.div_mul by lia.
  pose proof (Nat.pow_nonzero 2 D ltac:(lia)). lia.
Qed.
Lemma top_sums t D : t <> TOtherLayer ->
  list_sum (map (fun i => new_sums t (2 ^ i)) (seq 1 D)) = match t with TLinsum2 => 2 ^ (D + 1) - 2 | _ => 2 ^ D - 1 end%nat.
Proof.
  intros Ht. destruct t; cbn [new_sums]; try congruence; try apply pow_sum; try apply pow_half_sum.
  rewrite <- pow_half_sum. f_equal. apply map_ext_in. intros i Hi. apply in_seq in Hi. f_equal.
  destruct i as [|i]; [lia|]. replace (2 ^ S i)%nat with (2 ^ i * 2)%nat by (cbn; lia). rewrite Nat.mod_mul by lia. lia.
Qed.

Record close_net (Q : lrel) (a b : einet V) : Prop := {
  cn_F : e_F b = e_F a; cn_C : e_C b = e_C a; cn_L : e_L b = e_L a; cn_R : e_R b = e_R a; cn_K : e_K b = e_K a;
  cn_out : leaf_out b = leaf_out a;
  cn_fgrp : fgrp b = fgrp a;
  cn_layers : Forall2 (close_layer Q) (e_layers a) (e_layers b);
  cn_mixing : close_opt Q (e_mixing a) (e_mixing b) }.

Lemma mixing_close (Q : lrel) g (o o' : oracle V) m m' : alike Q o o' -> build_mixing g o = Ok m -> build_mixing g o' = Ok m' -> close_opt Q m m'.
Proof.
  intros Hw. unfold build_mixing. destruct (1 <? _)%nat; intros H H'.
  - apply bind_ok in H as (L & H & E). apply bind_ok in H' as (L' & H' & E'). injection E as <-. injection E' as <-. cbn.
    refine (proj1 (new_layer_close _ _ _ _ _ _ _ _ _ _ _ _ H H')). apply (wi_mix _ _ _ Hw).
  - injection H as <-. injection H' as <-. exact I.
Qed.

Lemma build_close (Q : lrel) g (o o' : oracle V) E E' : alike Q o o' -> build g o = Ok E -> build g o' = Ok E' ->
  close_net Q E E' /\ list_sum (map layer_sums (e_layers E)) = sum_nodes g.
Proof.
  intros Hw H H'. assert (Hp: o_perm o' = o_perm o) by (apply functional_extensionality; apply (wi_perm _ _ _ Hw)).
  unfold build in H, H'. apply bind_ok in H as (u0 & Hu0 & H). apply bind_ok in H' as (_ & _ & H'). unfold sum_nodes.
  destruct (g_struct g) eqn:Es; [| |discriminate].
  - unfold build_top_down in H, H'.
    apply bind_ok in H as (ls & Hls & H). apply bind_ok in H as (ls1 & Hls1 & H). apply bind_ok in H as (l & Hl & H).
    apply bind_ok in H as (lf & Hlf & H). apply bind_ok in H as (m & Hm & H). apply bind_ok in H as (r & Hr & H). injection H as <-.
    apply bind_ok in H' as (ls' & Hls' & H'). apply bind_ok in H' as (ls1' & Hls1' & H'). apply bind_ok in H' as (l' & Hl' & H').
    apply bind_ok in H' as (lf' & Hlf' & H'). apply bind_ok in H' as (m' & Hm' & H'). apply bind_ok in H' as (r' & Hr' & H'). injection H' as <-.
    assert (L1: Forall2 (close_layer Q) ls ls' /\ map layer_sums ls = map (fun i => new_sums (g_layer g) (2 ^ i)) (seq 1 (nval (g_depth g)))).
    { refine (mapM_close (close_layer Q) layer_sums (fun i => new_sums (g_layer g) (2 ^ i)) (top_layer g o) (top_layer g o') _ _ _ _ Hls Hls').
      intros i y y' Hy Hy'. unfold top_layer in Hy, Hy'.
      destruct (new_intermediate_close Q _ _ _ _ _ _ _ _ _ _ (wi_logits _ _ _ Hw i) Hy Hy') as (B1 & B2 & _). auto. }
    destruct L1 as (L1 & N1).
    assert (L2: Forall2 (close_layer Q) ls1 ls1' /\ list_sum (map layer_sums ls1) = match nval (g_depth g) with O => 1 | S _ => match g_layer g with TLinsum2 => 2 ^ (nval (g_depth g) + 1) - 2 | _ => 2 ^ nval (g_depth g) - 1 end end%nat).
    { destruct (Z.eqb_spec (zval (g_depth g)) 0) as [Hz|Hz].
      - apply bind_ok in Hls1 as (L & HL & E). apply bind_ok in Hls1' as (L' & HL' & E'). injection E as <-. injection E' as <-.
        destruct (new_layer_close Q _ _ _ _ _ _ _ _ _ _ (wi_logits _ _ _ Hw 0%nat) HL HL') as (C1 & C2). split.
        + apply Forall2_app; auto.
        + rewrite map_app, list_sum_app, N1. unfold nval. rewrite Hz. cbn. rewrite C2. reflexivity.
      - injection Hls1 as <-. injection Hls1' as <-. split; [exact L1|]. rewrite N1.
        destruct (nval (g_depth g)) as [|D] eqn:ED.
        { cbn in N1. destruct ls; [discriminate Hl|discriminate N1]. }
        assert (Ht: g_layer g <> TOtherLayer).
        { intros Ht. cbn [seq mapM] in Hls. apply bind_ok in Hls as (y & Hy & _). unfold top_layer in Hy. rewrite Ht in Hy. discriminate Hy. }
        rewrite top_sums by auto. reflexivity. }
    destruct L2 as (L2 & N2). pose proof (rev_close _ _ _ L2) as L2r.
    assert (L3: close_layer Q l l').
    { destruct L2r as [|a b ra rb Hab _]; [discriminate Hl|]. injection Hl as <-. injection Hl' as <-. exact Hab. }
    split.
    + unfold build_input in Hlf, Hlf'. apply bind_ok in Hlf as (b & _ & Hlf). apply bind_ok in Hlf' as (b' & _ & Hlf').
      rewrite (close_nf _ _ _ L3), <- (wi_sizes _ _ _ Hw), <- Hp in Hlf.
      constructor; unfold leaf_out, fgrp; cbn [e_F e_C e_L e_R e_K e_leaf e_perm e_layers e_mixing e_root]; auto.
      * destruct (_ =? 1)%nat; injection Hlf as <-; injection Hlf' as <-; reflexivity.
      * destruct (_ =? 1)%nat; injection Hlf as <-; injection Hlf' as <-; reflexivity.
      * eapply mixing_close; eauto.
    + cbn [e_layers]. rewrite map_rev, list_sum_rev. exact N2.
  - unfold build_bottom_up in H, H'.
    apply bind_ok in H as (ls & Hls & H). apply bind_ok in H as (ls1 & Hls1 & H). apply bind_ok in H as (u & Hu & H). apply bind_ok in H as (l & Hl & H).
    apply bind_ok in H as (rs & Hrs & H). apply bind_ok in H as (lf & Hlf & H). apply bind_ok in H as (m & Hm & H). apply bind_ok in H as (r & Hr & H). injection H as <-.
    apply bind_ok in H' as (ls' & Hls' & H'). apply bind_ok in H' as (ls1' & Hls1' & H'). apply bind_ok in H' as (u' & Hu' & H'). apply bind_ok in H' as (l' & Hl' & H').
    apply bind_ok in H' as (rs' & Hrs' & H'). apply bind_ok in H' as (lf' & Hlf' & H'). apply bind_ok in H' as (m' & Hm' & H'). apply bind_ok in H' as (r' & Hr' & H').
    injection H' as <-.
    assert (Ht: g_layer g = TLinsum).
    { unfold assert_valid in Hu0. rewrite Es in Hu0. do 12 (apply bind_ok in Hu0 as (? & _ & Hu0)). cbv zeta in Hu0. apply bind_ok in Hu0 as (? & Hb & _).
      destruct (g_layer g); [reflexivity|discriminate Hb..]. }
    destruct (bottom_close Q g o o' Hw Ht _ _ _ _ _ Hls Hls') as (L1 & N1).
    assert (L3: close_layer Q l l').
    { pose proof (rev_close _ _ _ L1) as L2. destruct L2 as [|a b ra rb Hab _]; [discriminate Hl|]. injection Hl as <-. injection Hl' as <-. exact Hab. }
    rewrite <- (close_nfo _ _ _ L3) in *.
    destruct (new_layer_close Q _ _ _ _ _ _ _ _ _ _ (wi_top _ _ _ Hw) Hrs Hrs') as (C1 & C2). split.
    + constructor; unfold leaf_out, fgrp; cbn [e_F e_C e_L e_R e_K e_leaf e_perm e_layers e_mixing e_root]; auto.
      * rewrite Hp. reflexivity.
      * apply Forall2_app; auto. constructor; [|constructor; [|constructor]]; cbn [close_layer]; auto.
      * eapply mixing_close; eauto.
    + cbn [e_layers]. rewrite map_app, list_sum_app, <- N1. f_equal. cbn. rewrite C2. destruct (rev ls); [discriminate Hl|]. injection Hl as <-. lia.
Qed.
End Build.

