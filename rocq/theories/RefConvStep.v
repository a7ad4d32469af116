(** A step on a convolutional circuit leads to a model that the constructor could have returned. *)
From Coq Require Import List Arith Lia Bool Reals Lra FunctionalExtensionality.
Import ListNotations.
From Verif Require Import Base RSum Num Tensor Prob Layers Leaf RefLeaf Einet Spec ConvPc RefConv RefConvNet Step RefStep ConvStep.
Local Open Scope R_scope.
Local Arguments Nat.div : simpl never. Local Arguments Nat.modulo : simpl never. Local Arguments Nat.sub : simpl never.
Local Arguments Nat.mul : simpl never. Local Arguments Nat.add : simpl never.

Section Moved.
Context {V : Type}.
(** The place in self.layers of the sum layer that is created as number [i] (counted from zero) *)
Definition place (g : cconfig) (i : nat) : nat := match cc_struct g with CTopDown => (length (cc_channels g) + 1 - i)%nat | _ => i end.
Definition conv_moved (g : cconfig) (o : coracle V) (d : nat -> list nat -> R) (lf : bleaf V) : coracle V :=
  mkCO (fun F C L Rn => _ <- co_leaf o F C L Rn ;; if (F =? lf_F lf)%nat && (C =? lf_C lf)%nat && (L =? lf_L lf)%nat && (Rn =? lf_R lf)%nat then Ok lf else Err ValueErr)
    (fun i s => add_to (co_logits o i s) (d (place g i))).
Context (g : cconfig) (C H W : nat) (o : coracle V) (d : nat -> list nat -> R) (lf : bleaf V).
Notation o' := (conv_moved g o d lf).
Lemma new_csum_step i cin cout h w : new_csum o' i cin cout h w = step_csum (new_csum o i cin cout h w) (d (place g i)).
Proof. reflexivity. Qed.
Lemma new_sumprod_step i cin cout h w kh kw ord l : new_sumprod o i cin cout h w kh kw ord = Ok l -> new_sumprod o' i cin cout h w kh kw ord = Ok (step_clay l (d (place g i))).
Proof. unfold new_sumprod. destruct (guard _ _); [|discriminate]. cbn [bind]. destruct ord; intros [= <-]; reflexivity. Qed.
Lemma build_bottom_step ord k : cc_struct g = CBottomUp -> forall chs i h w ls, build_bottom o ord k i chs h w = Ok ls -> build_bottom o' ord k i chs h w = Ok (step_clays i ls d).
Proof.
  intros Hs. assert (PL: forall i, place g i = i) by (intros; unfold place; rewrite Hs; reflexivity).
  induction chs as [|c [|c' rest] IH]; intros i h w ls E.
  - discriminate.
  - cbn [build_bottom] in E |- *. apply bind_ok in E as (l & El & E). injection E as <-. rewrite (new_sumprod_step _ _ _ _ _ _ _ _ _ El), PL. reflexivity.
  - change (build_bottom o ord k i (c :: c' :: rest) h w) with
      (l <- new_sumprod o i c c' h w k k ord ;; ls <- build_bottom o ord k (S i) (c' :: rest) (h / k) (w / k) ;; Ok (l :: ls)) in E.
    change (build_bottom o' ord k i (c :: c' :: rest) h w) with
      (l <- new_sumprod o' i c c' h w k k ord ;; ls <- build_bottom o' ord k (S i) (c' :: rest) (h / k) (w / k) ;; Ok (l :: ls)).
    apply bind_ok in E as (l & El & E). apply bind_ok in E as (ls1 & Es & E). injection E as <-.
    rewrite (new_sumprod_step _ _ _ _ _ _ _ _ _ El), PL. cbn [bind]. rewrite (IH _ _ _ _ Es). reflexivity.
Qed.
Lemma build_top_step ord chs : cc_struct g = CTopDown -> forall i h w acc r h1 w1, (i <= length (cc_channels g))%nat ->
  build_top o ord chs (length (cc_channels g)) i h w acc = Ok (r, h1, w1) ->
  build_top o' ord chs (length (cc_channels g)) i h w (step_clays (S i) acc d) = Ok (step_clays 1 r d, h1, w1).
Proof.
  intros Hs. induction i as [|i IH]; intros h w acc r h1 w1 Hi E.
  - cbn [build_top] in E |- *. injection E as <- <- <-. reflexivity.
  - cbn [build_top] in E |- *. apply bind_ok in E as (l & El & E). rewrite (new_sumprod_step _ _ _ _ _ _ _ _ _ El). cbn [bind].
    rewrite <- (IH _ _ _ _ _ _ ltac:(lia) E). cbn [step_clays]. do 2 f_equal. unfold place. rewrite Hs. f_equal. f_equal. lia.
Qed.
(** Leaves that a step may lead to have the same dimensions. *)
Lemma conv_moved_ok P : conv_accepted g C H W o P -> same_size (cp_leaf P) lf -> conv_accepted g C H W o' (step_conv P d lf).
Proof.
  intros A (L0 & L1 & L2 & L3 & L4). pose proof (build_conv_inv _ _ _ _ _ _ A) as (c0 & rest & EC & E1 & E2 & E3 & E4 & El & _ & _ & _ & HB).
  pose proof A as [HO HC _]. destruct (cor_leaf _ HO _ _ _ _ _ El) as (_ & F1 & F2 & F3 & F4 & _). split; auto.
  - split.
    + intros F C0 L Rn lf' E. cbn [conv_moved co_leaf] in E. apply bind_ok in E as (lf0 & E0 & E). destruct (cor_leaf _ HO _ _ _ _ _ E0) as (HP & _). split; auto.
      destruct (_ && _) eqn:Eb in E; [|discriminate]. injection E as <-. rewrite !andb_true_iff, !Nat.eqb_eq in Eb. intuition congruence.
    + intros i s. cbn [conv_moved co_logits add_to shape get]. destruct (cor_logits _ HO i s) as (S1 & S2). split; auto. intros idx Hi. specialize (S2 idx Hi).
      destruct (get (co_logits o i s) idx); try discriminate S2. reflexivity.
  - unfold build_convpc. rewrite EC. change (co_leaf o' (W * H) C c0 1) with
      (_ <- co_leaf o (W * H) C c0 1 ;; if (W * H =? lf_F lf)%nat && (C =? lf_C lf)%nat && (c0 =? lf_L lf)%nat && (1 =? lf_R lf)%nat then Ok lf else Err ValueErr).
    rewrite El. cbn [bind]. rewrite L1, L2, L3, L4, F1, F2, F3, F4, !Nat.eqb_refl. cbn [andb bind]. rewrite <- EC. unfold step_conv. rewrite E1, E2, E3, E4. destruct (cc_struct g) eqn:Hs.
    + destruct HB as (acc & h & w & Eb & ->). cbv zeta. change (CSum (new_csum o' 0 (last (cc_channels g) 0%nat) 1 1 1)) with (step_clay (CSum (new_csum o 0 (last (cc_channels g) 0%nat) 1 1 1)) (d (place g 0))).
      pose proof (build_top_step _ _ Hs _ _ _ _ _ _ _ (le_n _) Eb) as X. cbn [step_clays] in X.
      assert (PL: place g 0 = S (length (cc_channels g))) by (unfold place; rewrite Hs; lia). rewrite PL, X. reflexivity.
    + rewrite (build_bottom_step _ _ Hs _ _ _ _ _ HB). reflexivity.
    + contradiction.
Qed.
End Moved.
