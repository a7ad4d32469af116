(** A step leads to a network that the constructor could have returned. *)
From Coq Require Import List Arith Lia Bool ZArith Reals Lra FunctionalExtensionality.
Import ListNotations.
From Verif Require Import Base RSum Num Tensor Prob Layers Leaf Perm RefLeaf TypeChecks Einet Build RefBuild Spec Save Step.
Local Open Scope R_scope.

Section Moved.
Context {V : Type}.
(** The oracle that gives the network after the step *)
Definition moved (g : config) (o : oracle V) (d : nat -> list nat -> R) (dm : list nat -> R) (lf : bleaf V) : oracle V :=
  let D := nval (g_depth g) in
  mkOracle
    (fun i idx => nadd (o_logits o i idx) (Fin (d (match g_struct g with STopDown => D - i | _ => i end)%nat idx)))
    (fun idx => nadd (o_top o idx) (Fin (d D idx)))
    (fun idx => nadd (o_mix o idx) (Fin (dm idx)))
    (o_root o) (o_sizes o) (o_perm o) (fun _ _ _ _ => Ok lf).

Lemma new_layer_step ws lg d nf0 sin0 sout0 nrep0 drop L : (forall a b, ws (mkL nf0 sin0 sout0 nrep0 a) = ws (mkL nf0 sin0 sout0 nrep0 b)) ->
  new_layer ws lg nf0 sin0 sout0 nrep0 drop = Ok L ->
  new_layer ws (fun idx => nadd (lg idx) (Fin (d idx))) nf0 sin0 sout0 nrep0 drop = Ok (step_slay L d).
Proof.
  intros Hw H. unfold new_layer in *. repeat match type of H with bind ?m _ = Ok _ => destruct m; cbn [bind] in *; [|discriminate H] end.
  injection H as <-. unfold step_slay, add_to. cbn [nf sin sout nrep logits shape get]. do 3 f_equal. apply Hw.
Qed.
Lemma new_intermediate_step t lg d nf0 sin0 sout0 nrep0 drop l :
  new_intermediate t lg nf0 sin0 sout0 nrep0 drop = Ok l ->
  new_intermediate t (fun idx => nadd (lg idx) (Fin (d idx))) nf0 sin0 sout0 nrep0 drop = Ok (step_layer l d).
Proof.
  intros H. destruct t; cbn [new_intermediate] in *; try discriminate H; apply bind_ok in H as (L & H & E); injection E as <-;
    erewrite new_layer_step by (try exact H; reflexivity); reflexivity.
Qed.
Lemma step_layer_nf l d : layer_nf (step_layer l d) = layer_nf l.
Proof. destruct l; reflexivity. Qed.
Lemma step_layer_nfo l d : layer_nfo (step_layer l d) = layer_nfo l.
Proof. destruct l; reflexivity. Qed.
Lemma step_layers_app a b d : forall j, step_layers j (a ++ b) d = step_layers j a d ++ step_layers (j + List.length a) b d.
Proof.
  induction a as [|l a IH]; intros j; cbn [app step_layers List.length]; [f_equal; lia|]. rewrite IH. do 3 f_equal. lia.
Qed.
Lemma step_layers_length ls d : forall j, List.length (step_layers j ls d) = List.length ls.
Proof. induction ls as [|l ls IH]; intros j; cbn; auto. Qed.
Lemma step_layers_ext ls d d' : forall j, (forall i, (j <= i < j + List.length ls)%nat -> d i = d' i) -> step_layers j ls d = step_layers j ls d'.
Proof.
  induction ls as [|l ls IH]; intros j H; cbn [step_layers]; auto. rewrite (H j) by (cbn; lia). f_equal. apply IH. intros i Hi. apply H. cbn; lia.
Qed.
Lemma step_layers_rev ls d : forall j, rev (step_layers j ls d) = step_layers 0 (rev ls) (fun i => d (j + List.length ls - 1 - i)%nat).
Proof.
  induction ls as [|l ls IH]; intros j; cbn [step_layers rev]; auto. rewrite IH, step_layers_app. cbn [step_layers]. rewrite rev_length. f_equal.
  - apply step_layers_ext. intros i Hi. rewrite rev_length in Hi. f_equal. cbn [List.length]. lia.
  - do 3 f_equal. cbn [List.length]. lia.
Qed.
Lemma top_layers_step g o d dm lf : g_struct g = STopDown -> forall k i ls, mapM (top_layer g o) (seq i k) = Ok ls ->
  mapM (top_layer g (moved g o d dm lf)) (seq i k) = Ok (step_layers i ls (fun i => d (nval (g_depth g) - i)%nat)).
Proof.
  intros Hs. induction k as [|k IH]; intros i ls H; cbn [seq mapM] in *; [injection H as <-; reflexivity|].
  apply bind_ok in H as (l & Hl & H). apply bind_ok in H as (r & Hr & H). injection H as <-.
  unfold top_layer in Hl |- * at 1. cbn [moved o_logits]. rewrite Hs. cbv zeta. erewrite new_intermediate_step by exact Hl. cbn [bind]. erewrite IH by exact Hr. reflexivity.
Qed.
Lemma bottom_layers_step g o d dm lf : g_struct g = SBottomUp -> forall k i n ls, bottom_layers g o k i n = Ok ls ->
  bottom_layers g (moved g o d dm lf) k i n = Ok (step_layers i ls d).
Proof.
  intros Hs. induction k as [|k IH]; intros i n ls H; cbn [bottom_layers] in *; [injection H as <-; reflexivity|].
  apply bind_ok in H as (l & Hl & H). apply bind_ok in H as (r & Hr & H). injection H as <-.
  cbn [moved o_logits]. rewrite Hs. erewrite new_intermediate_step by exact Hl. cbn [bind]. rewrite step_layer_nfo. erewrite IH by exact Hr. reflexivity.
Qed.
Lemma mixing_step g o d dm lf m : build_mixing g o = Ok m -> build_mixing g (moved g o d dm lf) = Ok (option_map (fun m => step_slay m dm) m).
Proof.
  unfold build_mixing. destruct (_ <? _)%nat; intros H; [|injection H as <-; reflexivity]. apply bind_ok in H as (L & H & E). injection E as <-.
  cbn [moved o_mix]. erewrite new_layer_step by (try exact H; reflexivity). reflexivity.
Qed.
Lemma root_step g o d dm lf : build_root g (moved g o d dm lf) = build_root g o.
Proof. reflexivity. Qed.
Lemma input_step g o d dm lf Fo l : build_input g o Fo = Ok l ->
  build_input g (moved g o d dm lf) Fo = Ok (match l with LFact _ Fo sc => LFact lf Fo sc | LSimple _ Fo p q => LSimple lf Fo p q | LBase _ => LBase lf end).
Proof.
  unfold build_input. intros H. apply bind_ok in H as (l0 & _ & H). cbn [moved o_leaf bind o_perm o_sizes]. destruct (_ =? 1)%nat; injection H as <-; reflexivity.
Qed.
Lemma rev_hd {A} (l : list A) x : match rev l with [] => Err IndexErr | y :: _ => Ok y end = Ok x -> exists r, rev l = x :: r.
Proof. destruct (rev l) as [|y r]; intros H; [discriminate|injection H as ->; eauto]. Qed.
Lemma mapM_length {A B} (f : A -> res B) l : forall b, mapM f l = Ok b -> List.length b = List.length l.
Proof.
  induction l as [|x l IH]; intros b H; cbn [mapM] in H; [injection H as <-; reflexivity|].
  apply bind_ok in H as (y & _ & H). apply bind_ok in H as (r & Hr & H). injection H as <-. cbn. f_equal; auto.
Qed.
Lemma bottom_length g (o : oracle V) : forall k i n ls, bottom_layers g o k i n = Ok ls -> List.length ls = k.
Proof.
  induction k as [|k IH]; intros i n ls H; cbn [bottom_layers] in H; [injection H as <-; reflexivity|].
  apply bind_ok in H as (l & Hl & H). apply bind_ok in H as (r & Hr & H). injection H as <-. cbn. f_equal. eauto.
Qed.

Lemma build_step g o d dm lf E : build g o = Ok E -> build g (moved g o d dm lf) = Ok (step_net E d dm lf).
Proof.
  intros H. unfold build in *. apply bind_ok in H as ([] & Hv & H). rewrite Hv. cbn [bind]. destruct (g_struct g) eqn:Hs; [| |discriminate].
  - unfold build_top_down in *. apply bind_ok in H as (ls & Hls & H). rewrite (top_layers_step g o d dm lf Hs _ _ _ Hls). cbn [bind].
    apply bind_ok in H as (ls' & Hls' & H). apply bind_ok in H as (l & Hl & H). apply bind_ok in H as (leaf & Hleaf & H).
    apply bind_ok in H as (m & Hm & H). apply bind_ok in H as (r & Hr & H). injection H as <-.
    assert (HL: exists ls'', (if (zval (g_depth g) =? 0)%Z then L <- new_layer sum_weight_shape (o_logits (moved g o d dm lf) 0) 1 (nval (g_L g)) (nval (g_K g)) (nval (g_R g)) (g_drop g) ;;
        Ok (step_layers 1 ls (fun i => d (nval (g_depth g) - i)%nat) ++ [LSum L]) else Ok (step_layers 1 ls (fun i => d (nval (g_depth g) - i)%nat))) = Ok ls'' /\ rev ls'' = step_layers 0 (rev ls') d).
    { pose proof (mapM_length _ _ _ Hls) as LEN. rewrite seq_length in LEN. destruct (zval (g_depth g) =? 0)%Z eqn:Hz.
      - apply bind_ok in Hls' as (L & HL & Hls'). injection Hls' as <-. assert (D0: nval (g_depth g) = 0%nat) by (unfold nval; apply Z.eqb_eq in Hz; rewrite Hz; reflexivity).
        cbn [moved o_logits]. rewrite Hs, D0. erewrite new_layer_step by (try exact HL; reflexivity). cbn [bind]. eexists. split; [reflexivity|].
        rewrite D0 in LEN. destruct ls; [|discriminate]. reflexivity.
      - injection Hls' as <-. eexists. split; [reflexivity|]. rewrite step_layers_rev. apply step_layers_ext. intros i Hi. rewrite rev_length, LEN in Hi. f_equal. lia. }
    destruct HL as (ls'' & -> & ER). cbn [bind]. apply rev_hd in Hl as (rl & Hl). rewrite ER, Hl. cbn [step_layers bind]. rewrite step_layer_nf.
    rewrite (input_step g o d dm lf _ _ Hleaf). cbn [bind]. rewrite (mixing_step g o d dm lf _ Hm). cbn [bind]. rewrite root_step, Hr. cbn [bind].
    unfold step_net, with_leaf. cbn [e_F e_C e_L e_R e_K e_leaf e_perm e_layers e_mixing e_root]. reflexivity.
  - unfold build_bottom_up in *. apply bind_ok in H as (ls & Hls & H). rewrite (bottom_layers_step g o d dm lf Hs _ _ _ _ Hls). cbn [bind].
    apply bind_ok in H as (ls' & Hls' & H). apply bind_ok in H as ([] & Hg & H). rewrite Hg. apply bind_ok in H as (l & Hl & H). apply bind_ok in H as (rs & Hrs & H). apply bind_ok in H as (leaf & Hleaf & H).
    apply bind_ok in H as (m & Hm & H). apply bind_ok in H as (r & Hr & H). injection H as <-.
    pose proof (bottom_length _ _ _ _ _ _ Hls) as LEN.
    assert (D1: (zval (g_depth g) =? 0)%Z = false).
    { destruct (Z.eqb_spec (zval (g_depth g)) 0) as [D0|]; auto. unfold guard in Hg. unfold nval in Hg. rewrite D0 in Hg. discriminate. }
    rewrite D1. cbn [bind]. apply rev_hd in Hl as (rl & Hl).
    assert (ER: exists r2, rev (step_layers 0 ls d) = step_layer l (d (nval (g_depth g) - 1)%nat) :: r2).
    { rewrite step_layers_rev, Hl. cbn [step_layers]. eexists. f_equal. f_equal. f_equal. lia. }
    destruct ER as (r2 & ER). rewrite ER. cbn [bind]. rewrite step_layer_nfo. cbn [moved o_top]. erewrite new_layer_step by (try exact Hrs; reflexivity). cbn [bind o_leaf].
    change (mkOracle _ _ _ _ _ _ _) with (moved g o d dm lf). rewrite (mixing_step g o d dm lf _ Hm). cbn [bind]. rewrite root_step, Hr. cbn [bind].
    unfold step_net, with_leaf. cbn [e_F e_C e_L e_R e_K e_leaf e_perm e_layers e_mixing e_root]. rewrite step_layers_app, LEN. reflexivity.
Qed.

(** Leaves that a step may lead to: the same dimensions *)
Definition same_size (a b : bleaf V) : Prop := leaf_ok b /\ lf_F b = lf_F a /\ lf_C b = lf_C a /\ lf_L b = lf_L a /\ lf_R b = lf_R a.
Lemma leaf_sizes g o (E : einet V) : accepted g o E -> leaf_ok (leafE E) /\ lf_F (leafE E) = nval (g_F g) /\ lf_C (leafE E) = nval (g_C g) /\ lf_L (leafE E) = nval (g_L g) /\ lf_R (leafE E) = nval (g_R g).
Proof.
  intros A. destruct (ok_leaf _ _ (ac_oracle _ _ _ A)) as (lf & Hlf & Hok). assert (EQ: leafE E = lf); [|rewrite EQ; exact Hok].
  pose proof (ac_build _ _ _ A) as H. unfold build in H. apply bind_ok in H as ([] & _ & H). destruct (g_struct g); [| |discriminate].
  - unfold build_top_down in H. apply bind_ok in H as (? & _ & H). apply bind_ok in H as (? & _ & H). apply bind_ok in H as (? & _ & H). apply bind_ok in H as (leaf & Hleaf & H).
    apply bind_ok in H as (? & _ & H). apply bind_ok in H as (? & _ & H). injection H as <-. unfold leafE. cbn [e_leaf]. unfold build_input in Hleaf. rewrite Hlf in Hleaf. cbn [bind] in Hleaf.
    destruct (_ =? 1)%nat; injection Hleaf as <-; reflexivity.
  - unfold build_bottom_up in H. do 4 (apply bind_ok in H as (? & _ & H)). apply bind_ok in H as (? & _ & H). apply bind_ok in H as (leaf & Hleaf & H). rewrite Hlf in Hleaf. injection Hleaf as <-.
    do 2 (apply bind_ok in H as (? & _ & H)). injection H as <-. reflexivity.
Qed.
Lemma moved_ok g o (E : einet V) d dm lf : accepted g o E -> same_size (leafE E) lf -> accepted g (moved g o d dm lf) (step_net E d dm lf).
Proof.
  intros A (H0 & H1 & H2 & H3 & H4). destruct (leaf_sizes g o E A) as (_ & S1 & S2 & S3 & S4). pose proof (ac_oracle _ _ _ A) as O. split.
  - apply (ac_card _ _ _ A).
  - assert (FIN: forall a b, isfin a = true -> isfin (nadd a (Fin b)) = true) by (intros [x| | | ] b; cbn; auto; discriminate).
    split; cbn [moved o_logits o_top o_mix o_root o_sizes o_perm o_leaf]; intros; try apply FIN; try apply O; auto.
    exists lf. split; auto. split; auto. rewrite H1, H2, H3, H4. auto.
  - apply build_step. apply (ac_build _ _ _ A).
Qed.
Lemma step_leaf (E : einet V) d dm lf : leafE (step_net E d dm lf) = lf.
Proof. unfold leafE, step_net, with_leaf. cbn. destruct (e_leaf E); reflexivity. Qed.
End Moved.
