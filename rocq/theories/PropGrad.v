(** C73: gradients of log-likelihoods. *)
From Coq Require Import List Arith Lia Bool ZArith Reals Lra FunctionalExtensionality.
Import ListNotations.
From Verif Require Import Base RSum Num Tensor Prob Layers Circuit Net RefFwd Leaf Perm RefLeaf TypeChecks Einet RefNet RefEinet RefEinetS Build RefBuild
  Spec RefPost RefSpec RefPack Ex PropForward RefPerturb RefAlike RefGrad PropPerturb Train RefTrain PropTrain.
Local Open Scope R_scope.

(** * Specification *)
(** Sum over all indices of a tensor *)
Fixpoint isum (s : list nat) (f : list nat -> R) : R :=
  match s with [] => f [] | n :: s' => rsum n (fun i => isum s' (fun idx => f (i :: idx))) end.
(** The logits of layer [j] and of the mixing layer; layers without parameters have no indices. *)
Definition no_logits : tensor num := mkT [0%nat] (fun _ => Fin 0).
Definition layer_logits (l : layer) : tensor num := match l with LEin L | LLin L | LLin2 L | LSum L => logits L | LRoot _ => no_logits end.
Definition logits_at {V} (E : einet V) (j : nat) : tensor num := match nth_error (e_layers E) j with Some l => layer_logits l | None => no_logits end.
Definition mix_logits {V} (E : einet V) : tensor num := match e_mixing E with Some m => logits m | None => no_logits end.
(** The log-likelihood of row [n] under class [k] *)
Definition loglik {V} (E : einet V) (x : tensor (option V)) (ms : option (list nat)) (n k : nat) : R :=
  match forward E x ms with Ok y => toR (get y [n; k]) | Err _ => 0 end.
(** A curve of models of one configuration with one structure: logits and leaf log-probabilities depend on the real number [t], and
    have the derivatives [dl], [dm] and [dp] at [t0]. *)
Record curve {V} (g : config) (o : R -> oracle V) (E : R -> einet V) (t0 : R) (dl : nat -> list nat -> R) (dm : list nat -> R) (dp : nat -> nat -> nat -> nat -> V -> R) : Prop := {
  cu_accepted : forall t, accepted g (o t) (E t);
  cu_sizes : forall t, o_sizes (o t) = o_sizes (o t0);
  cu_perm : forall t r, o_perm (o t) r = o_perm (o t0) r;
  cu_logits : forall j idx, inb (shape (logits_at (E t0) j)) idx -> derivable_pt_lim (fun t => toR (get (logits_at (E t) j) idx)) t0 (dl j idx);
  cu_mix : forall idx, inb (shape (mix_logits (E t0))) idx -> derivable_pt_lim (fun t => toR (get (mix_logits (E t)) idx)) t0 (dm idx);
  cu_supp : forall t v, lf_supp (leafE (E t)) v = lf_supp (leafE (E t0)) v;
  cu_leaf : forall c f l r v, (c < lf_C (leafE (E t0)))%nat -> (f < lf_F (leafE (E t0)))%nat -> (l < lf_L (leafE (E t0)))%nat -> (r < lf_R (leafE (E t0)))%nat ->
    lf_supp (leafE (E t0)) v = true -> derivable_pt_lim (fun t => toR (lf_logp (leafE (E t)) [c; f; l; r] v)) t0 (dp c f l r v) }.
(** The coefficients of the logits of a sum node add up to zero. *)
Definition node_sums_zero (l : layer) (G : list nat -> R) : Prop :=
  match l with
  | LEin L => forall d o r, (d < hd 0 (shape (logits L)))%nat -> (o < sout L)%nat -> (r < nrep L)%nat -> rsum (sin L) (fun i => rsum (sin L) (fun j => G [d; o; r; i; j])) = 0
  | LLin L | LLin2 L | LSum L => forall d o r, (d < hd 0 (shape (logits L)))%nat -> (o < sout L)%nat -> (r < nrep L)%nat -> rsum (sin L) (fun i => G [d; i; o; r]) = 0
  | LRoot _ => True
  end.

(** * Sums over indices *)
Lemma isum_ext s : forall f h, (forall idx, inb s idx -> f idx = h idx) -> isum s f = isum s h.
Proof.
  induction s as [|n s IH]; intros f h H; cbn [isum]; [apply H; constructor|]. apply rsum_ext. intros i Hi. apply IH. intros idx Hidx. apply H. constructor; auto.
Qed.

(** * Layers *)
Section At.
Variable t0 : R.
Lemma wsoft_diff n (f : R -> nat -> num) d i : (i < n)%nat -> (forall k, (k < n)%nat -> derivable_pt_lim (fun t => toR (f t k)) t0 (d k)) ->
  ld t0 (fun t => wsoft n 1 (f t) i) (d i - rsum n (fun k => wsoft n 1 (f t0) k * d k)).
Proof.
  intros Hi H. unfold wsoft.
  assert (E: forall t, (fun k => toR (f t k) / 1) = (fun k => toR (f t k))) by (intros t; apply functional_extensionality; intros; unfold Rdiv; rewrite Rinv_1, Rmult_1_r; auto).
  apply (ld_ext t0 (fun t => rsoftmax n (fun k => toR (f t k)) i)); [intros t; rewrite E; auto|]. rewrite E.
  apply (ld_softmax t0 n (fun k t => toR (f t k))); auto.
Qed.
Definition same_dims (L L' : slay) : Prop := nf L = nf L' /\ sin L = sin L' /\ sout L = sout L' /\ nrep L = nrep L'.
Definition moves (L : R -> slay) (dl : list nat -> R) : Prop :=
  (forall t, same_dims (L t0) (L t)) /\ forall idx, inb (shape (logits (L t0))) idx -> derivable_pt_lim (fun t => toR (get (logits (L t)) idx)) t0 (dl idx).
Definition lin_th (dl : list nat -> R) (d o r k : nat) : R := dl [d; k; o; r].
Definition ein_th (S : nat) (dl : list nat -> R) (d o r k : nat) : R := dl [d; o; r; k / S; k mod S]%nat.
Definition no_th (d o r k : nat) : R := 0.
Lemma fixed_diff Rn U : udiff t0 Rn (fun _ => U) no_th.
Proof.
  split; auto. intros d o r k _ _ _ _. unfold no_th. eapply ld_eq; [|apply ld_const].
  rewrite (rsum_ext _ _ (fun _ => 0)) by (intros; ring). rewrite rsum_zero. ring.
Qed.
Lemma lin_moves L dl n Rn : moves L dl -> (forall d o r k, (d < n)%nat -> (k < sin (L t0))%nat -> (o < sout (L t0))%nat -> (r < Rn)%nat -> inb (shape (logits (L t0))) [d; k; o; r]) ->
  forall d o r k, (d < n)%nat -> (o < sout (L t0))%nat -> (r < Rn)%nat -> (k < sin (L t0))%nat ->
    ld t0 (fun t => linsum_w (L t) 1 d o r k) (lin_th dl d o r k - rsum (sin (L t0)) (fun j => linsum_w (L t0) 1 d o r j * lin_th dl d o r j)).
Proof.
  intros (Hd & H) Hs d o r k Hdn Ho Hr Hk. unfold linsum_w, lin_th.
  apply (ld_ext t0 (fun t => wsoft (sin (L t0)) 1 (fun k => get (logits (L t)) [d; k; o; r]) k)); [intros t; destruct (Hd t) as (_ & -> & _); auto|].
  apply (wsoft_diff (sin (L t0)) (fun t k => get (logits (L t)) [d; k; o; r]) (fun k => dl [d; k; o; r])); auto.
Qed.
Definition lay (l : layer) : slay := match l with LEin L | LLin L | LLin2 L | LSum L => L | LRoot D => mkL D 0 0 0 no_logits end.
Definition dummy_u : ulayer := rootprod_u 0 0.
Definition layer_fam (S : nat) (l : R -> layer) : list (R -> ulayer) :=
  match l t0 with
  | LLin2 _ => [fun t => nth 0 (layer_us 1 S (l t)) dummy_u; fun t => nth 1 (layer_us 1 S (l t)) dummy_u]
  | _ => [fun t => nth 0 (layer_us 1 S (l t)) dummy_u]
  end.
Definition layer_th (l : layer) (dl : list nat -> R) : list (nat -> nat -> nat -> nat -> R) :=
  match l with LEin L => [ein_th (sin L) dl] | LLin _ | LSum _ => [lin_th dl] | LLin2 _ => [lin_th dl; no_th] | LRoot _ => [no_th] end.
Definition anyrel : lrel := fun _ _ => True.
Lemma layer_moves Rn D S (l : R -> layer) dl : (forall t, close_layer anyrel (l t0) (l t)) -> layer_ok Rn D S (l t0) ->
  (forall idx, inb (shape (layer_logits (l t0))) idx -> derivable_pt_lim (fun t => toR (get (layer_logits (l t)) idx)) t0 (dl idx)) ->
  chain_diff t0 Rn (layer_fam S l) (layer_th (l t0) dl) /\ forall t, at_ (layer_fam S l) t = layer_us 1 S (l t).
Proof.
  intros Hc Ho Hd. destruct (l t0) as [L0|L0|L0|L0|D0] eqn:E0.
  - assert (El: exists L, l = fun t => LEin (L t)). { exists (fun t => lay (l t)). apply functional_extensionality. intros t. specialize (Hc t). destruct (l t); try contradiction. reflexivity. }
    destruct El as (L & ->). injection E0 as <-.
    unfold layer_fam. cbn [layer_us nth layer_th at_ map chain_diff close_layer layer_ok layer_logits] in *. split; [|reflexivity]. split; [|exact I].
    assert (Hdim: forall t, same_dims (L t0) (L t)) by (intros t; specialize (Hc t); unfold close in Hc; unfold same_dims; tauto).
    destruct Ho as ((P1 & P2 & P3 & P4 & P5 & Hs & _) & (_ & _ & <-)).
    split; unfold einsum_u, einsum_features_out; cbn [uDin uDout uSin uSout uK uW ukids usel]; try (intros t; destruct (Hdim t) as (E1 & E2 & E3 & _); rewrite <- ?E1, <- ?E2, <- ?E3; auto).
    intros d o r k Hd0 Ho0 Hr0 Hk0. unfold einsum_w, ein_th.
    apply (ld_ext t0 (fun t => wsoft (sin (L t0) * sin (L t0)) 1 (fun k => get (logits (L t)) [d; o; r; k / sin (L t0); k mod sin (L t0)]%nat) k)); [intros t; destruct (Hdim t) as (_ & -> & _); auto|].
    apply (wsoft_diff (sin (L t0) * sin (L t0)) (fun t k => get (logits (L t)) [d; o; r; k / sin (L t0); k mod sin (L t0)]%nat) (fun k => dl [d; o; r; k / sin (L t0); k mod sin (L t0)]%nat)); auto.
    intros j Hj. apply Hd. rewrite Hs. cbn [einsum_weight_shape inb]. unfold einsum_features_out. repeat split; auto; [apply Nat.div_lt_upper_bound; lia|apply Nat.mod_upper_bound; lia].
  - assert (El: exists L, l = fun t => LLin (L t)). { exists (fun t => lay (l t)). apply functional_extensionality. intros t. specialize (Hc t). destruct (l t); try contradiction. reflexivity. }
    destruct El as (L & ->). injection E0 as <-.
    unfold layer_fam. cbn [layer_us nth layer_th at_ map chain_diff close_layer layer_ok layer_logits] in *. split; [|reflexivity]. split; [|exact I].
    assert (Hdim: forall t, same_dims (L t0) (L t)) by (intros t; specialize (Hc t); unfold close in Hc; unfold same_dims; tauto).
    destruct Ho as ((P1 & P2 & Hs & _) & (_ & _ & <-)).
    split; unfold linsum_u, linsum_features_out, linsum_pad; cbn [uDin uDout uSin uSout uK uW ukids usel]; try (intros t; destruct (Hdim t) as (E1 & E2 & E3 & _); rewrite <- ?E1, <- ?E2, <- ?E3; auto).
    fold (linsum_pad (L t0)). fold (linsum_features_out (L t0)). apply lin_moves; [split; auto|]. intros d o r k H1 H2 H3 H4. rewrite Hs. cbn [linsum_weight_shape inb]. auto.
  - assert (El: exists L, l = fun t => LLin2 (L t)). { exists (fun t => lay (l t)). apply functional_extensionality. intros t. specialize (Hc t). destruct (l t); try contradiction. reflexivity. }
    destruct El as (L & ->). injection E0 as <-.
    unfold layer_fam. cbn [layer_us nth layer_th at_ map chain_diff close_layer layer_ok layer_logits] in *. split; [|reflexivity].
    assert (Hdim: forall t, same_dims (L t0) (L t)) by (intros t; specialize (Hc t); unfold close in Hc; unfold same_dims; tauto).
    destruct Ho as ((P1 & P2 & Hs & _) & _ & (_ & _ & <-)). split; [|split; [|exact I]].
    + split; unfold sum_u; cbn [uDin uDout uSin uSout uK uW ukids usel]; try (intros t; destruct (Hdim t) as (E1 & E2 & E3 & _); auto).
      apply lin_moves; [split; auto|]. intros d o r k H1 H2 H3 H4. rewrite Hs. cbn [linsum2_weight_shape inb]. auto.
    + replace (fun t => pairprod_u (nf (L t)) (sout (L t))) with (fun _ : R => pairprod_u (nf (L t0)) (sout (L t0))); [apply fixed_diff|].
      apply functional_extensionality. intros t. destruct (Hdim t) as (-> & _ & -> & _). reflexivity.
  - assert (El: exists L, l = fun t => LSum (L t)). { exists (fun t => lay (l t)). apply functional_extensionality. intros t. specialize (Hc t). destruct (l t); try contradiction. reflexivity. }
    destruct El as (L & ->). injection E0 as <-.
    unfold layer_fam. cbn [layer_us nth layer_th at_ map chain_diff close_layer layer_ok layer_logits] in *. split; [|reflexivity]. split; [|exact I].
    assert (Hdim: forall t, same_dims (L t0) (L t)) by (intros t; specialize (Hc t); unfold close in Hc; unfold same_dims; tauto).
    destruct Ho as ((P1 & Hs & _) & (_ & _ & <-)).
    split; unfold sum_u; cbn [uDin uDout uSin uSout uK uW ukids usel]; try (intros t; destruct (Hdim t) as (E1 & E2 & E3 & _); auto).
    apply lin_moves; [split; auto|]. intros d o r k H1 H2 H3 H4. rewrite Hs. cbn [sum_weight_shape inb]. auto.
  - assert (El: l = fun t => LRoot D0). { apply functional_extensionality. intros t. specialize (Hc t). destruct (l t); try contradiction. cbn in Hc. congruence. }
    subst l. unfold layer_fam. cbn [layer_us nth layer_th at_ map chain_diff]. split; [|reflexivity]. split; [|exact I]. apply fixed_diff.
Qed.
Fixpoint layers_fam (S : nat) (ls : list (R -> layer)) : list (R -> ulayer) :=
  match ls with [] => [] | l :: ls' => layer_fam S l ++ layers_fam (layer_sout S (l t0)) ls' end.
Fixpoint layers_th (ls : list layer) (dls : list (list nat -> R)) : list (nat -> nat -> nat -> nat -> R) :=
  match ls, dls with l :: ls', dl :: dls' => layer_th l dl ++ layers_th ls' dls' | _, _ => [] end.
Lemma chain_diff_app Rn us1 : forall ths1 us2 ths2, chain_diff t0 Rn us1 ths1 -> chain_diff t0 Rn us2 ths2 -> chain_diff t0 Rn (us1 ++ us2) (ths1 ++ ths2).
Proof. induction us1 as [|U us1 IH]; intros [|th ths1] us2 ths2 H H2; try destruct H; cbn; auto. Qed.
Definition ls_at (ls : list (R -> layer)) (t : R) : list layer := map (fun l => l t) ls.
Definition layer_drv (l : R -> layer) (dl : list nat -> R) : Prop :=
  (forall t, close_layer anyrel (l t0) (l t)) /\
  forall idx, inb (shape (layer_logits (l t0))) idx -> derivable_pt_lim (fun t => toR (get (layer_logits (l t)) idx)) t0 (dl idx).
Lemma layers_moves Rn ls : forall dls D S D' S', Forall2 layer_drv ls dls -> layers_ok Rn (ls_at ls t0) D S D' S' ->
  chain_diff t0 Rn (layers_fam S ls) (layers_th (ls_at ls t0) dls) /\ forall t, at_ (layers_fam S ls) t = layers_us 1 S (ls_at ls t).
Proof.
  induction ls as [|l ls IH]; intros dls D S D' S' H Ho; inversion H as [|? dl ? dls' (Hl & Hd) Hr]; subst; [split; [exact I|reflexivity]|].
  destruct Ho as (Ho & Hos). destruct (layer_moves Rn D S l dl Hl Ho Hd) as (H1 & H2). destruct (IH dls' _ _ _ _ Hr Hos) as (H3 & H4).
  cbn [layers_fam ls_at map layers_th layers_us]. split; [apply chain_diff_app; auto|].
  intros t. unfold at_. rewrite map_app. f_equal; [apply H2|]. fold (at_ (layers_fam (layer_sout S (l t0)) ls) t). rewrite H4. f_equal.
  specialize (Hl t). destruct (l t0), (l t); cbn in Hl |- *; try contradiction; try (unfold close in Hl); tauto.
Qed.
End At.

(** * Coefficients of the logits *)
Definition cof := nat -> nat -> nat -> nat -> R.
Definition no_cof : cof := fun _ _ _ _ => 0.
Definition layer_G (l : layer) (c : cof) (idx : list nat) : R :=
  match l, idx with
  | LEin L, [d; o; r; i; j] => c d o r (i * sin L + j)%nat
  | (LLin _ | LLin2 _ | LSum _), [d; i; o; r] => c d o r i
  | _, _ => 0
  end.
Fixpoint layers_G (S : nat) (ls : list layer) (cs : list cof) : list (list nat -> R) :=
  match ls with [] => [] | l :: ls' => layer_G l (hd no_cof cs) :: layers_G (layer_sout S l) ls' (skipn (List.length (layer_us 1 S l)) cs) end.
Fixpoint dots (ls : list layer) (Gs dls : list (list nat -> R)) : R :=
  match ls, Gs, dls with
  | l :: ls', G :: Gs', dl :: dls' => isum (shape (layer_logits l)) (fun idx => G idx * dl idx) + dots ls' Gs' dls'
  | _, _, _ => 0
  end.

Lemma move_in D So Rn K (h : cof) :
  rsum Rn (fun r => rsum D (fun d => rsum So (fun o => rsum K (fun k => h d o r k)))) = rsum D (fun d => rsum So (fun o => rsum Rn (fun r => rsum K (fun k => h d o r k)))).
Proof. rewrite rsum_swap. apply rsum_ext. intros d _. apply rsum_swap. Qed.
Lemma move_k So Rn K (h : nat -> nat -> nat -> R) :
  rsum K (fun k => rsum So (fun o => rsum Rn (fun r => h o r k))) = rsum So (fun o => rsum Rn (fun r => rsum K (fun k => h o r k))).
Proof. rewrite rsum_swap. apply rsum_ext. intros o _. apply rsum_swap. Qed.
(** Sums over the logits of a layer as sums over the weights of its nodes *)
Definition ein_sum (L : slay) (h : cof) : isum (einsum_weight_shape L) (fun idx => match idx with [d; o; r; i; j] => h d o r (i * sin L + j)%nat | _ => 0 end) =
  rsum (einsum_features_out L) (fun d => rsum (sout L) (fun o => rsum (nrep L) (fun r => rsum (sin L * sin L) (fun k => h d o r k)))).
Proof.
  cbn [einsum_weight_shape isum]. apply rsum_ext. intros d _. apply rsum_ext. intros o _. apply rsum_ext. intros r _. symmetry. apply rsum_mul.
Qed.
Definition lin_sum (D : nat) (L : slay) (h : cof) : isum [D; sin L; sout L; nrep L] (fun idx => match idx with [d; i; o; r] => h d o r i | _ => 0 end) =
  rsum D (fun d => rsum (sout L) (fun o => rsum (nrep L) (fun r => rsum (sin L) (fun k => h d o r k)))).
Proof. cbn [isum]. apply rsum_ext. intros d _. apply move_k. Qed.

Lemma udot_none U r c : udot U r c no_th = 0.
Proof. unfold udot, no_th. rewrite (rsum_ext _ _ (fun _ => 0)); [apply rsum_zero|]. intros d _. rewrite (rsum_ext _ _ (fun _ => 0)); [apply rsum_zero|]. intros o _. rewrite (rsum_ext _ _ (fun _ => 0)); [apply rsum_zero|]. intros; ring. Qed.
Lemma layer_dot Rn D S l cs dl : layer_ok Rn D S l -> List.length cs = List.length (layer_us 1 S l) ->
  rsum Rn (fun r => udots (layer_us 1 S l) r cs (layer_th l dl)) = isum (shape (layer_logits l)) (fun idx => layer_G l (hd no_cof cs) idx * dl idx).
Proof.
  intros Ho Hl.
  assert (LS: forall D0 L c, rsum (nrep L) (fun r => rsum D0 (fun d => rsum (sout L) (fun o => rsum (sin L) (fun k => c d o r k * lin_th dl d o r k)))) =
    isum [D0; sin L; sout L; nrep L] (fun idx => match idx with [d; i; o; r] => c d o r i | _ => 0 end * dl idx)).
  { intros D0 L c. rewrite move_in, <- (lin_sum D0 L (fun d o r k => c d o r k * lin_th dl d o r k)). apply isum_ext. intros idx Hi. unfold lin_th.
    destruct idx as [|d [|i [|o [|r [|]]]]]; try (cbn in Hi; tauto); ring. }
  destruct l as [L|L|L|L|D0]; cbn [layer_us layer_th layer_logits layer_ok List.length] in *.
  - destruct cs as [|c [|]]; try discriminate Hl. destruct Ho as ((P & _ & _ & _ & _ & Hs & _) & (_ & _ & <-)). rewrite Hs. cbn [udots hd layer_G].
    rewrite (isum_ext _ _ (fun idx => match idx with [d; o; r; i; j] => c d o r (i * sin L + j)%nat * ein_th (sin L) dl d o r (i * sin L + j)%nat | _ => 0 end)).
    2:{ intros idx Hi. destruct idx as [|d [|o [|r [|i [|j [|]]]]]]; try (cbn in Hi; tauto); try ring. unfold ein_th.
        destruct Hi as (_ & _ & _ & Hi & Hj & _). rewrite Nat.div_add_l, (Nat.div_small j), Nat.add_0_r by lia. rewrite Nat.add_comm, Nat.mod_add, Nat.mod_small by lia. reflexivity. }
    rewrite (ein_sum L (fun d o r k => c d o r k * ein_th (sin L) dl d o r k)), <- move_in. apply rsum_ext. intros r _. unfold udot, einsum_u. cbn [uDout uSout uK]. ring.
  - destruct cs as [|c [|]]; try discriminate Hl. destruct Ho as ((_ & _ & Hs & _) & (_ & _ & <-)). rewrite Hs. etransitivity; [|exact (LS (linsum_features_out L) L c)].
    cbn [udots hd].
    apply rsum_ext. intros r _. unfold udot, linsum_u. cbn [uDout uSout uK]. ring.
  - destruct cs as [|c [|c2 [|]]]; try discriminate Hl. destruct Ho as ((_ & _ & Hs & _) & _ & (_ & _ & <-)). rewrite Hs. etransitivity; [|exact (LS (nf L) L c)].
    cbn [udots hd].
    apply rsum_ext. intros r _. rewrite udot_none. unfold udot, sum_u. cbn [uDout uSout uK]. ring.
  - destruct cs as [|c [|]]; try discriminate Hl. destruct Ho as ((_ & Hs & _) & (_ & _ & <-)). rewrite Hs. etransitivity; [|exact (LS (nf L) L c)].
    cbn [udots hd].
    apply rsum_ext. intros r _. unfold udot, sum_u. cbn [uDout uSout uK]. ring.
  - destruct cs as [|c [|]]; try discriminate Hl. cbn [udots no_logits shape isum]. rewrite rsum_0. rewrite (rsum_ext _ _ (fun _ => 0)) by (intros; rewrite udot_none; ring). apply rsum_zero.
Qed.
Lemma udots_app us1 : forall us2 r cs ths1 ths2, List.length ths1 = List.length us1 -> (List.length us1 <= List.length cs)%nat ->
  udots (us1 ++ us2) r cs (ths1 ++ ths2) = udots us1 r (firstn (List.length us1) cs) ths1 + udots us2 r (skipn (List.length us1) cs) ths2.
Proof.
  induction us1 as [|U us1 IH]; intros us2 r [|c cs] [|th ths1] ths2 H1 H2; try discriminate H1; try (cbn in H2; lia); cbn [app List.length firstn skipn udots]; try lra.
  injection H1 as H1. rewrite IH by (auto; cbn in H2; lia). lra.
Qed.
Lemma layer_th_length S l dl : List.length (layer_th l dl) = List.length (layer_us 1 S l).
Proof. destruct l; reflexivity. Qed.
Lemma layers_dot Rn ls : forall D S D' S' cs dls, layers_ok Rn ls D S D' S' -> List.length cs = List.length (layers_us 1 S ls) -> List.length dls = List.length ls ->
  rsum Rn (fun r => udots (layers_us 1 S ls) r cs (layers_th ls dls)) = dots ls (layers_G S ls cs) dls.
Proof.
  induction ls as [|l ls IH]; intros D S D' S' cs [|dl dls] Ho Hc Hd; try discriminate Hd; cbn [layers_us layers_th layers_G dots].
  - cbn [udots]. apply rsum_zero.
  - destruct Ho as (Ho & Hos). injection Hd as Hd. cbn [layers_us] in Hc. rewrite app_length in Hc.
    rewrite (rsum_ext _ _ _ (fun r _ => udots_app (layer_us 1 S l) _ r cs _ _ (layer_th_length S l dl) ltac:(lia))), rsum_plus. f_equal.
    + rewrite (layer_dot Rn D S l) by (auto; rewrite firstn_length; lia). f_equal. destruct cs as [|c cs]; [|destruct l; reflexivity]. destruct l; cbn in Hc; lia.
    + apply (IH _ _ _ _ _ _ Hos); auto. rewrite skipn_length. lia.
Qed.

(** * Size of the coefficients *)
Definition layer_good (l : layer) (G : list nat -> R) : Prop :=
  (forall idx, inb (shape (layer_logits l)) idx -> Rabs (G idx) <= 1) /\ node_sums_zero l G /\
  isum (shape (layer_logits l)) (fun idx => Rabs (G idx)) <= 2 * INR (layer_sums l).
Lemma node_total D So Rn K (c : cof) a m : shares D So Rn a m -> rsum Rn m = 1 ->
  (forall d o r, (d < D)%nat -> (o < So)%nat -> (r < Rn)%nat -> rsum K (fun k => Rabs (c d o r k)) <= 2 * a d o r) ->
  rsum D (fun d => rsum So (fun o => rsum Rn (fun r => rsum K (fun k => Rabs (c d o r k))))) <= 2 * INR D.
Proof.
  intros (_ & Ha) Hm H. replace (2 * INR D) with (rsum D (fun _ => 2)) by (rewrite rsum_const; ring). apply rsum_le. intros d Hd.
  apply Rle_trans with (rsum So (fun o => rsum Rn (fun r => 2 * a d o r))); [apply rsum_le; intros o Ho; apply rsum_le; auto|].
  rewrite rsum_swap. rewrite (rsum_ext Rn _ (fun r => 2 * m r)); [rewrite rsum_scal_l, Hm; lra|]. intros r Hr. rewrite rsum_scal_l, Ha by auto. reflexivity.
Qed.
Lemma fair_good Rn D S l c m : (0 < Rn)%nat -> layer_ok Rn D S l -> (forall r, (r < Rn)%nat -> 0 <= m r) -> rsum Rn m = 1 -> fair Rn m (hd dummy_u (layer_us 1 S l)) c -> layer_good l (layer_G l c).
Proof.
  intros HR Ho Hm0 Hm1 (a & Ha & Hf). assert (A1: forall d o r, (d < uDout (hd dummy_u (layer_us 1 S l)))%nat -> (o < uSout (hd dummy_u (layer_us 1 S l)))%nat -> (r < Rn)%nat -> a d o r <= 1).
  { intros d o r Hd Ho' Hr. destruct (shares_le _ _ _ _ _ d o r Ha Hd Ho' Hr). pose proof (term_le_sum Rn m r Hr Hm0). lra. }
  assert (LS: forall D0 L, uDout (hd dummy_u (layer_us 1 S l)) = D0 -> uSout (hd dummy_u (layer_us 1 S l)) = sout L -> uK (hd dummy_u (layer_us 1 S l)) = sin L -> nrep L = Rn ->
    (forall idx, inb [D0; sin L; sout L; nrep L] idx -> Rabs (match idx with [d; i; o; r] => c d o r i | _ => 0 end) <= 1) /\
    (forall d o r, (d < D0)%nat -> (o < sout L)%nat -> (r < nrep L)%nat -> rsum (sin L) (fun i => c d o r i) = 0) /\
    isum [D0; sin L; sout L; nrep L] (fun idx => Rabs (match idx with [d; i; o; r] => c d o r i | _ => 0 end)) <= 2 * INR D0).
  { intros D0 L E1 E2 E3 E4. rewrite E1, E2, E3 in *. rewrite E4. split; [|split].
    - intros idx Hi. destruct idx as [|d [|i [|o [|r [|]]]]]; try (cbn in Hi; tauto). destruct Hi as (H1 & H2 & H3 & H4 & _).
      eapply Rle_trans; [apply (Hf d o r H1 H3 H4); auto|apply A1; auto].
    - intros d o r H1 H2 H3. apply (Hf d o r H1 H2 H3).
    - rewrite <- E4. erewrite isum_ext; [rewrite (lin_sum D0 L (fun d o r i => Rabs (c d o r i))), E4|].
      + apply (node_total D0 (sout L) Rn (sin L) c a m Ha Hm1). intros d o r H1 H2 H3. apply (Hf d o r H1 H2 H3).
      + intros idx Hi. destruct idx as [|d [|i [|o [|r [|]]]]]; try (cbn in Hi; tauto). }
  destruct l as [L|L|L|L|D0]; cbn [layer_us hd layer_ok] in *; unfold layer_good; cbn [layer_logits layer_sums node_sums_zero].
  - destruct Ho as ((P & _ & _ & _ & _ & Hs & _) & (_ & _ & <-)). rewrite Hs. unfold einsum_u in Ha, Hf, A1. cbn [uDout uSout uK] in Ha, Hf, A1. cbn [layer_G]. split; [|split].
    + intros idx Hi. destruct idx as [|d [|o [|r [|i [|j [|]]]]]]; try (cbn in Hi; tauto). destruct Hi as (H1 & H2 & H3 & H4 & H5 & _).
      eapply Rle_trans; [apply (Hf d o r H1 H2 H3); nia|apply A1; auto].
    + cbn [einsum_weight_shape hd]. intros d o r H1 H2 H3. rewrite <- rsum_mul. apply (Hf d o r H1 H2 H3).
    + erewrite isum_ext; [rewrite (ein_sum L (fun d o r k => Rabs (c d o r k)))|].
      * apply (node_total (einsum_features_out L) (sout L) (nrep L) (sin L * sin L) c a m Ha Hm1). intros d o r H1 H2 H3. apply (Hf d o r H1 H2 H3).
      * intros idx Hi. destruct idx as [|d [|o [|r [|i [|j [|]]]]]]; try (cbn in Hi; tauto).
  - destruct Ho as ((_ & _ & Hs & _) & (_ & _ & E)). rewrite Hs. apply (LS (linsum_features_out L) L); auto.
  - destruct Ho as ((_ & _ & Hs & _) & _ & (_ & _ & E)). rewrite Hs. apply (LS (nf L) L); auto.
  - destruct Ho as ((_ & Hs & _) & (_ & _ & E)). rewrite Hs. apply (LS (nf L) L); auto.
  - split; [|split; [exact I|]]; cbn [no_logits shape isum layer_G].
    + intros idx Hi. destruct idx; cbn in Hi; try tauto. lia.
    + rewrite rsum_0. cbn [INR]. lra.
Qed.
Lemma all_fair_app Rn m us1 : forall us2 cs, all_fair Rn m (us1 ++ us2) cs -> all_fair Rn m us1 (firstn (List.length us1) cs) /\ all_fair Rn m us2 (skipn (List.length us1) cs).
Proof.
  induction us1 as [|U us1 IH]; intros us2 [|c cs] H; cbn [app List.length firstn skipn all_fair] in *; try tauto. destruct H as (H1 & H2). apply IH in H2. tauto.
Qed.
Lemma all_fair_length Rn m us : forall cs, all_fair Rn m us cs -> List.length cs = List.length us.
Proof. induction us as [|U us IH]; intros [|c cs] H; try destruct H; cbn; auto. Qed.
Lemma layers_good Rn m ls : forall D S D' S' cs, (0 < Rn)%nat -> layers_ok Rn ls D S D' S' -> (forall r, (r < Rn)%nat -> 0 <= m r) -> rsum Rn m = 1 -> all_fair Rn m (layers_us 1 S ls) cs ->
  Forall2 layer_good ls (layers_G S ls cs).
Proof.
  induction ls as [|l ls IH]; intros D S D' S' cs HR Ho Hm0 Hm1 Hf; cbn [layers_G]; [constructor|]. destruct Ho as (Ho & Hos). cbn [layers_us] in Hf.
  apply all_fair_app in Hf as (H1 & H2). constructor; [|eapply IH; eauto].
  apply (fair_good Rn D S l _ m HR Ho Hm0 Hm1). destruct cs as [|c cs]; [destruct l; destruct H1|]. destruct l; destruct H1; auto.
Qed.

(** * The gradient *)
Lemma rsum_head n f : rsum (S n) f = f 0%nat + rsum n (fun i => f (S i)).
Proof. change (S n) with (1 + n)%nat. rewrite rsum_add. rewrite rsum_S, rsum_0. cbn. ring. Qed.
Definition zero_at (idx : list nat) : R := 0.
Lemma dots_nth ls : forall Gs dls, List.length Gs = List.length ls -> List.length dls = List.length ls ->
  dots ls Gs dls = rsum (List.length ls) (fun j => isum (shape match nth_error ls j with Some l => layer_logits l | None => no_logits end) (fun idx => nth j Gs zero_at idx * nth j dls zero_at idx)).
Proof.
  induction ls as [|l ls IH]; intros [|G Gs] [|dl dls] H1 H2; try discriminate H1; try discriminate H2; cbn [dots List.length]; [rewrite rsum_0; auto|].
  rewrite rsum_head. cbn [nth_error nth]. f_equal. apply IH; auto.
Qed.
Lemma isum_zero s : isum s (fun _ => 0) = 0.
Proof. induction s as [|n s IH]; cbn [isum]; auto. rewrite (rsum_ext _ _ (fun _ => 0)) by auto. apply rsum_zero. Qed.
Lemma isum_le s : forall f h, (forall idx, inb s idx -> f idx <= h idx) -> isum s f <= isum s h.
Proof.
  induction s as [|n s IH]; intros f h H; cbn [isum]; [apply H; constructor|]. apply rsum_le. intros i Hi. apply IH. intros idx Hidx. apply H. constructor; auto.
Qed.

(** What the coefficients are: [G j] those of the logits of layer [j], [Gm] those of the mixing layer, [Gl] those of the leaves. *)
Record gradient {V} (g : config) (E : einet V) (G : nat -> list nat -> R) (Gm : list nat -> R) (Gl : nat -> nat -> nat -> nat -> R) : Prop := {
  gr_le : forall j idx, inb (shape (logits_at E j)) idx -> Rabs (G j idx) <= 1;
  gr_mix_le : forall idx, inb (shape (mix_logits E)) idx -> Rabs (Gm idx) <= 1;
  gr_zero : forall j l, nth_error (e_layers E) j = Some l -> node_sums_zero l (G j);
  gr_mix_zero : forall y, (y < e_K E)%nat -> rsum (e_R E) (fun r => Gm [0; y; r]%nat) = 0;
  gr_total : rsum (List.length (e_layers E)) (fun j => isum (shape (logits_at E j)) (fun idx => Rabs (G j idx))) + isum (shape (mix_logits E)) (fun idx => Rabs (Gm idx)) <= 2 * INR (nodes g);
  gr_leaf_pos : forall c f l r, (c < e_C E)%nat -> (f < e_F E)%nat -> (l < e_L E)%nat -> (r < e_R E)%nat -> 0 <= Gl c f l r;
  gr_leaf_sum : forall c f, (c < e_C E)%nat -> (f < e_F E)%nat -> rsum (e_L E) (fun l => rsum (e_R E) (fun r => Gl c f l r)) = 1 }.
(** The sum of all parameters' derivatives, weighted with the coefficients *)
Definition slope {V} (E : einet V) (x : tensor (option V)) (ms : option (list nat)) (n : nat)
    (G : nat -> list nat -> R) (Gm : list nat -> R) (Gl : nat -> nat -> nat -> nat -> R)
    (dl : nat -> list nat -> R) (dm : list nat -> R) (dp : nat -> nat -> nat -> nat -> V -> R) : R :=
  rsum (List.length (e_layers E)) (fun j => isum (shape (logits_at E j)) (fun idx => G j idx * dl j idx)) +
  isum (shape (mix_logits E)) (fun idx => Gm idx * dm idx) +
  rsum (e_F E) (fun f => rsum (e_C E) (fun c => match observed x ms n c f with
    | Some v => rsum (e_L E) (fun l => rsum (e_R E) (fun r => Gl c f l r * dp c f l r v))
    | None => 0 end)).

Section Net.
Context {V : Type} (g : config) (o0 : oracle V) (E0 : einet V).
Hypothesis (A : accepted g o0 E0).
Context (N : nat) (x : tensor (option V)) (ms : option (list nat)) (n k : nat).
Hypothesis (He : evidence E0 N x ms) (Hn : (n < N)%nat) (Hk : (k < e_K E0)%nat).

Definition q0 (E : einet V) : leaves := lval (pdf (leafE E)) (row x ms n).
Lemma q0_pos E c f l r : 0 < q0 E c f l r.
Proof. apply lval_pos. Qed.
Definition gG (j : nat) : list nat -> R := nth j (layers_G (e_L E0) (e_layers E0) (ncoefs (fnet E0) (q0 E0) k)) zero_at.
Definition gm (idx : list nat) : R :=
  match idx with
  | [_; y; r] => if ((1 <? e_R E0) && (y =? k))%nat then npost (fnet E0) (q0 E0) k r - nmix (fnet E0) k r else 0
  | _ => 0
  end.
Definition gl (c f l r : nat) : R := nleaf (fnet E0) (q0 E0) k f l r.

Let HE : einet_ok E0 := accepted_ok g o0 E0 A.
Let Hw : cnet_wf (fnet E0) := fnet_wf E0 HE.
Let Pq : forall c f l r, (c < nC (fnet E0))%nat -> (f < nF (fnet E0))%nat -> (l < nL (fnet E0))%nat -> (r < nR (fnet E0))%nat -> 0 < q0 E0 c f l r := fun c f l r _ _ _ _ => q0_pos E0 c f l r.
Lemma post_nonneg r : (r < e_R E0)%nat -> 0 <= npost (fnet E0) (q0 E0) k r.
Proof. intros Hr. apply npost_nonneg; auto. Qed.
Lemma post_sum : rsum (e_R E0) (npost (fnet E0) (q0 E0) k) = 1.
Proof. apply (npost_sum (fnet E0)); auto. apply neteval_pos; auto. Qed.
Lemma coefs_length : List.length (ncoefs (fnet E0) (q0 E0) k) = List.length (layers_us 1 (e_L E0) (e_layers E0)).
Proof. apply (all_fair_length (e_R E0) (npost (fnet E0) (q0 E0) k)). apply (ncoefs_fair (fnet E0) (q0 E0) k); auto. Qed.
Lemma all_good : Forall2 layer_good (e_layers E0) (layers_G (e_L E0) (e_layers E0) (ncoefs (fnet E0) (q0 E0) k)).
Proof.
  apply (layers_good (e_R E0) (npost (fnet E0) (q0 E0) k) _ _ _ _ _ _ (eo_R _ HE) (eo_layers _ HE)); [apply post_nonneg|apply post_sum|]. apply (ncoefs_fair (fnet E0) (q0 E0) k); auto.
Qed.
Lemma layers_G_length S ls : forall cs, List.length (layers_G S ls cs) = List.length ls.
Proof. revert S. induction ls as [|l ls IH]; intros S cs; cbn; auto. Qed.
Lemma good_nth j l : nth_error (e_layers E0) j = Some l -> layer_good l (gG j).
Proof.
  unfold gG. pose proof all_good as H. revert j. induction H as [|a b la lb H1 H2 IH]; intros [|j] Hj; try discriminate Hj; cbn in *.
  - injection Hj as <-. exact H1.
  - apply IH. exact Hj.
Qed.
Lemma mix_shape : (1 < e_R E0)%nat -> shape (mix_logits E0) = [1; e_K E0; e_R E0]%nat.
Proof.
  intros H. destruct (eo_mix _ HE H) as (m & Em & (_ & M1 & M2 & _) & M3 & M4). unfold mix_logits. rewrite Em, M2. unfold mixing_weight_shape. congruence.
Qed.
Lemma mix_fair : (forall r, (r < e_R E0)%nat -> Rabs (npost (fnet E0) (q0 E0) k r - nmix (fnet E0) k r) <= 1) /\
  rsum (e_R E0) (fun r => npost (fnet E0) (q0 E0) k r - nmix (fnet E0) k r) = 0 /\ rsum (e_R E0) (fun r => Rabs (npost (fnet E0) (q0 E0) k r - nmix (fnet E0) k r)) <= 2.
Proof.
  destruct (diff_fair (e_R E0) 1 (npost (fnet E0) (q0 E0) k) (nmix (fnet E0) k)) as (H1 & H2 & H3).
  - lra.
  - apply post_nonneg.
  - intros r Hr. left. apply (nw_mix_pos _ Hw); auto.
  - apply post_sum.
  - apply (nw_mix_sum _ Hw); auto.
  - split; [|split].
    + intros r Hr. specialize (H1 r Hr). rewrite Rmult_1_l in H1. exact H1.
    + rewrite <- H2. apply rsum_ext. intros; ring.
    + replace 2 with (2 * 1) by ring. eapply Rle_trans; [|exact H3]. apply rsum_le. intros. rewrite Rmult_1_l. lra.
Qed.
Lemma isum_mix (h : nat -> R) : (1 < e_R E0)%nat -> isum (shape (mix_logits E0)) (fun idx => match idx with [_; y; r] => if (y =? k)%nat then h r else 0 | _ => 0 end) = rsum (e_R E0) h.
Proof.
  intros H. rewrite (mix_shape H). cbn [isum]. rewrite rsum_S, rsum_0, Rplus_0_l.
  rewrite (rsum_ext _ _ (fun y => (if (y =? k)%nat then 1 else 0) * rsum (e_R E0) h)).
  - apply (rsum_indicator (e_K E0) k (fun _ => rsum (e_R E0) h)). auto.
  - intros y _. destruct (y =? k)%nat; [rewrite Rmult_1_l; reflexivity|]. rewrite rsum_zero. ring.
Qed.
Lemma gradient_holds : gradient g E0 gG gm gl.
Proof.
  constructor.
  - intros j idx Hi. unfold logits_at in Hi. destruct (nth_error (e_layers E0) j) as [l|] eqn:El; [apply (good_nth j l El); auto|]. destruct idx; cbn in Hi; try tauto. lia.
  - intros idx Hi. unfold gm. destruct idx as [|a [|y [|r [|]]]]; try (rewrite Rabs_R0; lra). destruct (Nat.ltb_spec 1 (e_R E0)) as [H|H]; [|cbn; rewrite Rabs_R0; lra].
    rewrite (mix_shape H) in Hi. destruct Hi as (_ & _ & Hr & _). destruct (y =? k)%nat; cbn [andb]; [apply mix_fair; auto|rewrite Rabs_R0; lra].
  - intros j l El. apply (good_nth j l El).
  - intros y Hy. unfold gm. destruct (_ && _); [apply mix_fair|apply rsum_zero].
  - assert (T1: rsum (List.length (e_layers E0)) (fun j => isum (shape (logits_at E0 j)) (fun idx => Rabs (gG j idx))) <= 2 * INR (sum_nodes g)).
    { destruct (build_close anyrel g o0 o0 E0 E0) as (_ & <-); [split; auto; exact (fun _ => I) || exact I|apply A|apply A|].
      unfold logits_at, gG. pose proof all_good as H. induction H as [|a b la lb H1 H2 IH]; [cbn; lra|].
      cbn [List.length]. rewrite rsum_head. cbn [nth_error nth map]. change (list_sum (layer_sums a :: map layer_sums la)) with (layer_sums a + list_sum (map layer_sums la))%nat.
      rewrite plus_INR. destruct H1 as (_ & _ & H1). lra. }
    assert (T2: isum (shape (mix_logits E0)) (fun idx => Rabs (gm idx)) <= 2 * INR (if (1 <? nval (g_R g))%nat then 1 else 0)).
    { destruct (build_inv g o0 E0 (ac_card _ _ _ A) (ac_oracle _ _ _ A) (ac_build _ _ _ A)) as (_ & _ & _ & ER & _). rewrite <- ER.
      destruct (Nat.ltb_spec 1 (e_R E0)) as [H|H].
      - cbn [INR]. rewrite Rmult_1_r. eapply Rle_trans; [|apply mix_fair]. right. rewrite <- (isum_mix _ H). apply isum_ext. intros idx Hi. rewrite (mix_shape H) in Hi.
        destruct idx as [|a [|y [|r [|]]]]; try (cbn in Hi; tauto). unfold gm. apply Nat.ltb_lt in H. rewrite H. cbn [andb]. destruct (y =? k)%nat; auto. apply Rabs_R0.
      - cbn [INR]. rewrite Rmult_0_r. right. rewrite <- (isum_zero (shape (mix_logits E0))). apply isum_ext. intros idx _. unfold gm. apply Nat.ltb_ge in H. rewrite H. cbn [andb].
        destruct idx as [|a [|y [|r [|]]]]; apply Rabs_R0. }
    unfold nodes. rewrite plus_INR. lra.
  - intros c f l r Hc Hf Hl Hr. apply (nleaf_shares (fnet E0) (q0 E0) k f Hw Hk Pq Hf); auto.
  - intros c f Hc Hf. rewrite rsum_swap. rewrite <- post_sum. apply rsum_ext. intros r Hr. apply (nleaf_shares (fnet E0) (q0 E0) k f Hw Hk Pq Hf); auto.
Qed.
End Net.

Section Curve.
Context {V : Type} (g : config) (o : R -> oracle V) (E : R -> einet V) (t0 : R) (dl : nat -> list nat -> R) (dm : list nat -> R) (dp : nat -> nat -> nat -> nat -> V -> R).
Hypothesis (HC : curve g o E t0 dl dm dp).
Context (N : nat) (x : tensor (option V)) (ms : option (list nat)) (n k : nat).
Hypothesis (He : evidence (E t0) N x ms) (Hn : (n < N)%nat) (Hk : (k < e_K (E t0))%nat).

Lemma same_net t : close_net anyrel (E t0) (E t).
Proof.
  refine (proj1 (build_close anyrel g (o t0) (o t) (E t0) (E t) _ (ac_build _ _ _ (cu_accepted _ _ _ _ _ _ _ HC t0)) (ac_build _ _ _ (cu_accepted _ _ _ _ _ _ _ HC t)))).
  split; try exact I; try exact (fun _ => I); [apply (cu_sizes _ _ _ _ _ _ _ HC)|apply (cu_perm _ _ _ _ _ _ _ HC)].
Qed.
Lemma evidence_at t : evidence (E t) N x ms.
Proof.
  pose proof (same_net t) as S. unfold evidence, batch, scopes_ok in *. rewrite (cn_F _ _ _ S), (cn_C _ _ _ S). destruct He as ((H1 & H2) & H3). split; [split; auto|auto].
  intros n' c f v Hn' Hc Hf Hv. rewrite (cu_supp _ _ _ _ _ _ _ HC). eauto.
Qed.
Lemma loglik_at t : loglik (E t) x ms n k = ln (neteval (fnet (E t)) (q0 x ms n (E t)) k).
Proof.
  pose proof (accepted_ok g _ _ (cu_accepted _ _ _ _ _ _ _ HC t)) as HE. destruct (forward_rep (E t) HE N x ms (evidence_input (E t) N x ms (evidence_at t))) as (y & Ey & _ & Gy).
  unfold loglik. rewrite Ey, Gy by (auto; rewrite (cn_K _ _ _ (same_net t)); auto). reflexivity.
Qed.
Definition lsf : list (R -> layer) := map (fun j t => match nth_error (e_layers (E t)) j with Some l => l | None => LRoot 0 end) (seq 0 (List.length (e_layers (E t0)))).
Lemma layers_length t : List.length (e_layers (E t)) = List.length (e_layers (E t0)).
Proof. pose proof (cn_layers _ _ _ (same_net t)) as H. clear - H. induction H; cbn; auto. Qed.
Lemma lsf_at t : ls_at lsf t = e_layers (E t).
Proof.
  unfold ls_at, lsf. rewrite map_map, <- (layers_length t). generalize (e_layers (E t)). intros ls. clear.
  induction ls as [|l ls IH]; [reflexivity|]. cbn [List.length seq map nth_error]. f_equal. rewrite <- seq_shift, map_map. exact IH.
Qed.
Lemma lsf_moves : Forall2 (layer_drv t0) lsf (map dl (seq 0 (List.length (e_layers (E t0))))).
Proof.
  unfold lsf. assert (H: forall j, In j (seq 0 (List.length (e_layers (E t0)))) -> layer_drv t0 (fun t => match nth_error (e_layers (E t)) j with Some l => l | None => LRoot 0 end) (dl j)).
  { intros j Hj. apply in_seq0 in Hj. split.
    - intros t. pose proof (cn_layers _ _ _ (same_net t)) as H. clear - H Hj. revert j Hj. induction H as [|a b la lb H1 H2 IH]; intros j Hj; [cbn in Hj; lia|].
      destruct j as [|j]; cbn [nth_error]; auto. apply IH. cbn in Hj. lia.
    - intros idx Hi. pose proof (cu_logits _ _ _ _ _ _ _ HC j idx) as H. unfold logits_at in H.
      assert (T: forall t, exists l, nth_error (e_layers (E t)) j = Some l).
      { intros t. destruct (nth_error (e_layers (E t)) j) eqn:En; eauto. apply nth_error_None in En. rewrite layers_length in En. lia. }
      eapply dlim_ext; [|apply H].
      + intros t. cbv beta. destruct (T t) as (l & ->). reflexivity.
      + destruct (T t0) as (l & El). rewrite El in Hi |- *. exact Hi. }
  induction (seq 0 (List.length (e_layers (E t0)))) as [|j js IH]; cbn [map]; constructor; [apply H; left; auto|apply IH; intros; apply H; right; auto].
Qed.
Definition thm (y r : nat) : R := if (1 <? e_R (E t0))%nat then dm [0; y; r]%nat else 0.
Lemma fnet_diff : ndiff t0 (fun t => fnet (E t)) (layers_fam t0 (e_L (E t0)) lsf) (layers_th (e_layers (E t0)) (map dl (seq 0 (List.length (e_layers (E t0)))))) thm.
Proof.
  pose proof (accepted_ok g _ _ (cu_accepted _ _ _ _ _ _ _ HC t0)) as HE.
  pose proof (eo_layers _ HE) as Ho. rewrite <- (lsf_at t0) in Ho. destruct (layers_moves t0 _ _ _ _ _ _ _ lsf_moves Ho) as (M1 & M2). rewrite lsf_at in M1.
  constructor; cbn [fnet net_with nF nC nR nL nCls ngroup nls nmix]; try (intros t; apply (same_net t)).
  - intros t. rewrite M2, lsf_at. f_equal. apply (cn_L _ _ _ (same_net t)).
  - exact M1.
  - intros y r Hy Hr. unfold thm. destruct (Nat.ltb_spec 1 (e_R (E t0))) as [H|H].
    + assert (W: forall t y r, emix (E t) 1 y r = wsoft (e_R (E t0)) 1 (fun j => get (mix_logits (E t)) [0; y; j]%nat) r).
      { intros t y' r'. pose proof (accepted_ok g _ _ (cu_accepted _ _ _ _ _ _ _ HC t)) as HEt. unfold emix, mix_logits. assert (HR: (1 < e_R (E t))%nat) by (rewrite (cn_R _ _ _ (same_net t)); auto).
        destruct (eo_mix _ HEt HR) as (m & Em & _ & Hs & _). rewrite Em. apply Nat.ltb_lt in HR. rewrite HR. unfold mixing_w. rewrite Hs, (cn_R _ _ _ (same_net t)). reflexivity. }
      apply (ld_ext t0 (fun t => wsoft (e_R (E t0)) 1 (fun j => get (mix_logits (E t)) [0; y; j]%nat) r)); [intros t; rewrite W; reflexivity|].
      erewrite rsum_ext; [|intros j _; rewrite W; reflexivity].
      apply (wsoft_diff t0 (e_R (E t0)) (fun t j => get (mix_logits (E t)) [0; y; j]%nat) (fun j => dm [0; y; j]%nat)); auto.
      intros j Hj. apply (cu_mix _ _ _ _ _ _ _ HC). rewrite (mix_shape g (o t0) (E t0) (cu_accepted _ _ _ _ _ _ _ HC t0) H). cbn [inb]. repeat split; auto.
    + apply (ld_ext t0 (fun _ => 1)).
      * intros t. unfold emix. rewrite (cn_R _ _ _ (same_net t)). apply Nat.ltb_ge in H. rewrite H. destruct (e_mixing (E t)); reflexivity.
      * eapply ld_eq; [|apply ld_const]. rewrite (rsum_ext _ _ (fun _ => 0)) by (intros; ring). rewrite rsum_zero. ring.
Qed.
Definition mu (c f l r : nat) : R := match row x ms n c f with Some v => dp c f l r v | None => 0 end.
Lemma leaf_diff c f l r : (c < e_C (E t0))%nat -> (f < e_F (E t0))%nat -> (l < e_L (E t0))%nat -> (r < e_R (E t0))%nat ->
  ld t0 (fun t => q0 x ms n (E t) c f l r) (mu c f l r).
Proof.
  intros Hc Hf Hl Hr. unfold q0, lval, mu. destruct (row x ms n c f) as [v|] eqn:Ev; [|apply ld_const]. unfold pdf. apply ld_exp.
  pose proof (accepted_ok g _ _ (cu_accepted _ _ _ _ _ _ _ HC t0)) as HE. apply (cu_leaf _ _ _ _ _ _ _ HC); unfold leafE; rewrite ?(eo_lC _ HE), ?(eo_lF _ HE), ?(eo_lL _ HE), ?(eo_lR _ HE); auto.
  destruct He as ((_ & Hs) & _). apply (Hs n c f v); auto. unfold row in Ev. destruct (in_ms ms f); [discriminate|auto].
Qed.
Lemma slope_holds : derivable_pt_lim (fun t => loglik (E t) x ms n k) t0
  (slope (E t0) x ms n (gG (E t0) x ms n k) (gm (E t0) x ms n k) (gl (E t0) x ms n k) dl dm dp).
Proof.
  pose proof (cu_accepted _ _ _ _ _ _ _ HC t0) as A. pose proof (accepted_ok g _ _ A) as HE. pose proof (fnet_wf _ HE) as Hw.
  apply (dlim_ext t0 (fun t => ln (neteval (fnet (E t)) (q0 x ms n (E t)) k))); [intros t; symmetry; apply loglik_at|].
  pose proof (neteval_diff t0 (fun t => fnet (E t)) _ _ _ (fun t => q0 x ms n (E t)) mu k Hw fnet_diff Hk) as X.
  cbv beta in X. assert (P: 0 < neteval (fnet (E t0)) (q0 x ms n (E t0)) k) by (apply neteval_pos; auto; intros; apply q0_pos).
  eapply dlim_eq; [|apply (ld_ln t0 (fun t => neteval (fnet (E t)) (q0 x ms n (E t)) k) _ P); apply X].
  2:{ intros c f l r Hc Hf Hl Hr. split; [apply q0_pos|apply leaf_diff; auto]. }
  clear X. unfold ngrad, slope. cbn [fnet net_with nR nls nF nC nL]. fold (fnet (E t0)). f_equal; [f_equal|].
  - rewrite (layers_dot (e_R (E t0)) (e_layers (E t0)) _ _ _ _ _ _ (eo_layers _ HE)).
    + rewrite dots_nth; [|apply layers_G_length|rewrite map_length, seq_length; reflexivity]. apply rsum_ext. intros j Hj. unfold logits_at, gG. apply isum_ext. intros idx _.
      f_equal. rewrite (nth_indep _ zero_at (dl 0%nat)) by (rewrite map_length, seq_length; auto). rewrite map_nth, seq_nth by auto. reflexivity.
    + apply (coefs_length g (o t0) (E t0) A x ms n k Hk).
    + rewrite map_length, seq_length. reflexivity.
  - unfold thm, gm. destruct (Nat.ltb_spec 1 (e_R (E t0))) as [H|H].
    + rewrite <- (isum_mix g (o t0) (E t0) A k Hk (fun r => (npost (fnet (E t0)) (q0 x ms n (E t0)) k r - nmix (fnet (E t0)) k r) * dm [0; k; r]%nat) H).
      apply isum_ext. intros idx Hi. rewrite (mix_shape g (o t0) (E t0) A H) in Hi. destruct idx as [|a [|y [|r [|]]]]; try (cbn in Hi; tauto). destruct Hi as (Ha & _).
      replace a with 0%nat by lia. cbn [andb]. destruct (Nat.eqb_spec y k) as [->|]; ring.
    + rewrite (rsum_ext _ _ (fun _ => 0)) by (intros; ring). rewrite rsum_zero. symmetry. etransitivity; [|apply (isum_zero (shape (mix_logits (E t0))))]. apply isum_ext. intros idx _.
      destruct idx as [|a [|y [|r [|]]]]; cbn [andb]; ring.
  - rewrite rsum_swap. apply rsum_ext. intros f Hf. rewrite rsum_swap. apply rsum_ext. intros c Hc. rewrite rsum_swap.
    assert (Er: row x ms n c f = observed x ms n c f) by (unfold row, observed, in_ms; destruct ms; reflexivity).
    unfold mu, gl. rewrite Er. destruct (observed x ms n c f); [reflexivity|].
    rewrite (rsum_ext _ _ (fun _ => 0)); [apply rsum_zero|]. intros l _. rewrite (rsum_ext _ _ (fun _ => 0)) by (intros; ring). apply rsum_zero.
Qed.
End Curve.

(** * C73 *)
(** Log-likelihoods of complete and of partial data are differentiable in all logits and in the leaf log-probabilities.  One gradient
    gives the derivative along every curve. *)
Theorem C73_gradient : forall V g (o0 : oracle V) E0 N x ms n k, accepted g o0 E0 -> evidence E0 N x ms -> (n < N)%nat -> (k < e_K E0)%nat ->
  exists G Gm Gl, gradient g E0 G Gm Gl /\
    forall o E t0 dl dm dp, curve g o E t0 dl dm dp -> E t0 = E0 ->
      derivable_pt_lim (fun t => loglik (E t) x ms n k) t0 (slope E0 x ms n G Gm Gl dl dm dp).
Proof.
  intros V g o0 E0 N x ms n k A He Hn Hk. exists (gG E0 x ms n k), (gm E0 x ms n k), (gl E0 x ms n k). split; [eapply gradient_holds; eauto|].
  intros o E t0 dl dm dp HC <-. eapply slope_holds; eauto.
Qed.
Print Assumptions C73_gradient.

Lemma isum_nonneg s : forall f, (forall idx, inb s idx -> 0 <= f idx) -> 0 <= isum s f.
Proof. intros f H. rewrite <- (isum_zero s). apply isum_le. exact H. Qed.
Lemma rsum_abs_le m (f h : nat -> R) : (forall i, (i < m)%nat -> Rabs (f i) <= h i) -> Rabs (rsum m f) <= rsum m h.
Proof.
  induction m as [|m IH]; intros H; [rewrite !rsum_0, Rabs_R0; lra|]. rewrite !rsum_S. eapply Rle_trans; [apply Rabs_triang|]. apply Rplus_le_compat; [apply IH; intros; apply H; lia|apply H; lia].
Qed.
Lemma isum_abs_le s : forall f h, (forall idx, inb s idx -> Rabs (f idx) <= h idx) -> Rabs (isum s f) <= isum s h.
Proof.
  induction s as [|m s IH]; intros f h H; cbn [isum]; [apply H; constructor|]. apply rsum_abs_le. intros i Hi. apply IH. intros idx Hidx. apply H. constructor; auto.
Qed.
Lemma isum_scal s : forall a f, isum s (fun idx => a * f idx) = a * isum s f.
Proof. induction s as [|m s IH]; intros a f; cbn [isum]; auto. rewrite <- rsum_scal_l. apply rsum_ext. intros i _. apply IH. Qed.
Lemma slope_le {V} g (o0 : oracle V) E0 N x ms n G Gm Gl dl dm dp delta eps : accepted g o0 E0 -> evidence E0 N x ms -> (n < N)%nat -> gradient g E0 G Gm Gl -> 0 <= delta ->
  (forall j idx, inb (shape (logits_at E0 j)) idx -> Rabs (dl j idx) <= delta) -> (forall idx, inb (shape (mix_logits E0)) idx -> Rabs (dm idx) <= delta) ->
  (forall c f l r v, (c < e_C E0)%nat -> (f < e_F E0)%nat -> (l < e_L E0)%nat -> (r < e_R E0)%nat -> lf_supp (leafE E0) v = true -> Rabs (dp c f l r v) <= eps) ->
  Rabs (slope E0 x ms n G Gm Gl dl dm dp) <= 2 * delta * INR (nodes g) + eps * count_observed E0 x ms n.
Proof.
  intros A He Hn HG Hd H1 H2 H3. unfold slope, count_observed. eapply Rle_trans; [apply Rabs_triang|]. apply Rplus_le_compat.
  - eapply Rle_trans; [apply Rabs_triang|]. pose proof (gr_total _ _ _ _ _ HG) as T.
    apply Rle_trans with (delta * (rsum (List.length (e_layers E0)) (fun j => isum (shape (logits_at E0 j)) (fun idx => Rabs (G j idx))) + isum (shape (mix_logits E0)) (fun idx => Rabs (Gm idx)))); [|nra].
    rewrite Rmult_plus_distr_l, <- rsum_scal_l, <- isum_scal. apply Rplus_le_compat.
    + apply rsum_abs_le. intros j Hj. rewrite <- isum_scal. apply isum_abs_le. intros idx Hi. rewrite Rabs_mult. pose proof (Rabs_pos (G j idx)). specialize (H1 j idx Hi). nra.
    + apply isum_abs_le. intros idx Hi. rewrite Rabs_mult. pose proof (Rabs_pos (Gm idx)). specialize (H2 idx Hi). nra.
  - rewrite <- rsum_scal_l. apply rsum_abs_le. intros f Hf. rewrite <- rsum_scal_l. apply rsum_abs_le. intros c Hc.
    destruct (observed x ms n c f) as [v|] eqn:Ev; [|rewrite Rabs_R0; lra]. rewrite Rmult_1_r.
    assert (Hs: lf_supp (leafE E0) v = true).
    { destruct He as ((_ & Hs) & _). apply (Hs n c f v); auto. unfold observed in Ev. destruct ms as [l|]; [destruct (existsb _ _); [discriminate|auto]|auto]. }
    replace eps with (eps * 1) by ring. rewrite <- (gr_leaf_sum _ _ _ _ _ HG c f Hc Hf), <- rsum_scal_l. apply rsum_abs_le. intros l Hl. rewrite <- rsum_scal_l. apply rsum_abs_le. intros r Hr.
    rewrite Rabs_mult. pose proof (gr_leaf_pos _ _ _ _ _ HG c f l r Hc Hf Hl Hr). rewrite (Rabs_pos_eq (Gl c f l r)) by auto. specialize (H3 c f l r v Hc Hf Hl Hr Hs). nra.
Qed.
(** Parameters that move with a speed of at most [delta] (logits) and [eps] (leaf log-probabilities) *)
Definition slower {V} (E : einet V) (delta eps : R) (dl : nat -> list nat -> R) (dm : list nat -> R) (dp : nat -> nat -> nat -> nat -> V -> R) : Prop :=
  (forall j idx, inb (shape (logits_at E j)) idx -> Rabs (dl j idx) <= delta) /\ (forall idx, inb (shape (mix_logits E)) idx -> Rabs (dm idx) <= delta) /\
  (forall c f l r v, (c < e_C E)%nat -> (f < e_F E)%nat -> (l < e_L E)%nat -> (r < e_R E)%nat -> lf_supp (leafE E) v = true -> Rabs (dp c f l r v) <= eps).
Theorem C73_speed : forall V g (o : R -> oracle V) E t0 dl dm dp N x ms n k delta eps, curve g o E t0 dl dm dp -> evidence (E t0) N x ms -> (n < N)%nat -> (k < e_K (E t0))%nat ->
  0 <= delta -> slower (E t0) delta eps dl dm dp ->
  exists d, derivable_pt_lim (fun t => loglik (E t) x ms n k) t0 d /\ Rabs d <= 2 * delta * INR (nodes g) + eps * count_observed (E t0) x ms n.
Proof.
  intros V g o E t0 dl dm dp N x ms n k delta eps HC He Hn Hk Hd (H1 & H2 & H3). pose proof (cu_accepted _ _ _ _ _ _ _ HC t0) as A.
  destruct (C73_gradient V g (o t0) (E t0) N x ms n k A He Hn Hk) as (G & Gm & Gl & HG & HD). eexists. split; [apply (HD o E t0 dl dm dp HC eq_refl)|].
  apply (slope_le g (o t0) (E t0) N x ms n G Gm Gl dl dm dp delta eps A He Hn HG Hd H1 H2 H3).
Qed.
Print Assumptions C73_speed.

(** One logit moves with speed one; all other parameters stay. *)
Definition only_logit (j0 : nat) (idx0 : list nat) (j : nat) (idx : list nat) : R := if (j =? j0)%nat then if list_eq_dec Nat.eq_dec idx idx0 then 1 else 0 else 0.
Lemma isum_only s : forall idx0 f, inb s idx0 -> isum s (fun idx => f idx * (if list_eq_dec Nat.eq_dec idx idx0 then 1 else 0)) = f idx0.
Proof.
  induction s as [|m s IH]; intros [|i0 idx0] f H; cbn [inb] in H; try tauto; cbn [isum].
  - destruct (list_eq_dec Nat.eq_dec [] []); [ring|congruence].
  - destruct H as (H0 & H). rewrite (rsum_ext _ _ (fun i => (if (i =? i0)%nat then 1 else 0) * f (i :: idx0))).
    + apply (rsum_indicator m i0 (fun i => f (i :: idx0)) H0).
    + intros i Hi. rewrite <- (IH idx0 (fun idx => f (i :: idx)) H), <- isum_scal. apply isum_ext. intros idx _.
      destruct (Nat.eqb_spec i i0) as [->|Hne]; destruct (list_eq_dec Nat.eq_dec idx idx0); destruct (list_eq_dec Nat.eq_dec _ _); try ring; try congruence.
Qed.
Theorem C73_logit : forall V g (o : R -> oracle V) E t0 j0 idx0 N x ms n k, (j0 < List.length (e_layers (E t0)))%nat -> inb (shape (logits_at (E t0) j0)) idx0 ->
  curve g o E t0 (only_logit j0 idx0) (fun _ => 0) (fun _ _ _ _ _ => 0) -> evidence (E t0) N x ms -> (n < N)%nat -> (k < e_K (E t0))%nat ->
  exists d, derivable_pt_lim (fun t => loglik (E t) x ms n k) t0 d /\ Rabs d <= 1.
Proof.
  intros V g o E t0 j0 idx0 N x ms n k Hj Hi HC He Hn Hk. pose proof (cu_accepted _ _ _ _ _ _ _ HC t0) as A.
  destruct (C73_gradient V g (o t0) (E t0) N x ms n k A He Hn Hk) as (G & Gm & Gl & HG & HD). exists (G j0 idx0). split; [|apply (gr_le _ _ _ _ _ HG); auto].
  eapply dlim_eq; [|apply (HD _ _ _ _ _ _ HC eq_refl)]. unfold slope.
  rewrite (rsum_ext _ _ (fun j => (if (j =? j0)%nat then 1 else 0) * G j0 idx0)).
  2:{ intros j _. unfold only_logit. destruct (Nat.eqb_spec j j0) as [->|Hne].
      - rewrite isum_only by auto. ring.
      - rewrite Rmult_0_l. etransitivity; [|apply isum_zero]. apply isum_ext. intros. ring. }
  rewrite (rsum_indicator _ j0 (fun _ => G j0 idx0)) by auto.
  rewrite (isum_ext _ _ (fun _ => 0)), isum_zero by (intros; ring).
  rewrite (rsum_ext (e_F (E t0)) _ (fun _ => 0)); [rewrite rsum_zero; ring|]. intros f _. rewrite (rsum_ext _ _ (fun _ => 0)); [apply rsum_zero|]. intros c _.
  destruct (observed x ms n c f); auto. rewrite (rsum_ext _ _ (fun _ => 0)); [apply rsum_zero|]. intros l _. rewrite (rsum_ext _ _ (fun _ => 0)); [apply rsum_zero|]. intros; ring.
Qed.
Print Assumptions C73_logit.

(** The losses of the training programs *)
Definition loss_value (r : res num) : R := match r with Ok a => toR a | Err _ => 0 end.
Lemma lik_loglik {V} g o (E : einet V) N x n k : accepted g o E -> batch E N x -> (n < N)%nat -> (k < e_K E)%nat -> 0 < lik E x None n k /\ ln (lik E x None n k) = loglik E x None n k.
Proof.
  intros A HB Hn Hk. destruct (forward_ln g o E A N x HB) as (y & Ey & _ & G). destruct (G n k Hn Hk) as (P & Gy). split; auto. unfold loglik. rewrite Ey, Gy. reflexivity.
Qed.
Lemma mean_le N f B : (0 < N)%nat -> (forall n, (n < N)%nat -> Rabs (f n) <= B) -> Rabs (mean N f) <= B.
Proof.
  intros HN H. unfold mean. pose proof (lt_0_INR N HN). unfold Rdiv. rewrite Rabs_mult, (Rabs_pos_eq (/ INR N)) by (left; apply Rinv_0_lt_compat; auto).
  apply Rle_trans with (rsum N (fun _ => B) * / INR N); [apply Rmult_le_compat_r; [left; apply Rinv_0_lt_compat; auto|]; apply rsum_abs_le; auto|].
  rewrite rsum_const. right. field. lra.
Qed.
Lemma mean_diff t0 N (f : nat -> R -> R) d : (forall n, (n < N)%nat -> derivable_pt_lim (f n) t0 (d n)) -> derivable_pt_lim (fun t => mean N (fun n => f n t)) t0 (mean N d).
Proof.
  intros H. unfold mean, Rdiv. apply (dlim_ext t0 (fun t => / INR N * rsum N (fun n => f n t))); [intros; ring|]. rewrite Rmult_comm.
  apply (derivable_pt_lim_scal (fun t => rsum N (fun n => f n t))). apply dlim_rsum. auto.
Qed.
Section Losses.
Context {V : Type} (g : config) (o : R -> oracle V) (E : R -> einet V) (t0 : R) (dl : nat -> list nat -> R) (dm : list nat -> R) (dp : nat -> nat -> nat -> nat -> V -> R).
Hypothesis (HC : curve g o E t0 dl dm dp).
Context (N : nat) (x : tensor (option V)) (B : R) (d : nat -> nat -> R).
Hypothesis (HB : batch (E t0) N x) (HN : (0 < N)%nat).
Hypothesis (Hd : forall n k, (n < N)%nat -> (k < e_K (E t0))%nat -> derivable_pt_lim (fun t => loglik (E t) x None n k) t0 (d n k) /\ Rabs (d n k) <= B).

Let A t : accepted g (o t) (E t) := cu_accepted _ _ _ _ _ _ _ HC t.
Lemma batch_at t : batch (E t) N x.
Proof. apply (proj1 (evidence_at g o E t0 dl dm dp HC N x None (conj HB I) t)). Qed.
Lemma classes_at t : e_K (E t) = e_K (E t0).
Proof. apply (same_net g o E t0 dl dm dp HC t). Qed.
Lemma generative_diff labels : let D := - mean N (fun n => rsum (e_K (E t0)) (fun k => post (E t0) x n k * d n k)) in
  derivable_pt_lim (fun t => loss_value (train_loss (E t) false x labels)) t0 D /\ Rabs D <= B.
Proof.
  pose proof (classes_pos g (o t0) (E t0) (A t0)) as HK. unfold post. set (K := e_K (E t0)) in *.
  set (p := fun n k => lik (E t0) x None n k / rsum K (fun k => lik (E t0) x None n k)).
  change (let D := - mean N (fun n => rsum K (fun k => p n k * d n k)) in derivable_pt_lim (fun t => loss_value (train_loss (E t) false x labels)) t0 D /\ Rabs D <= B).
  intros D. unfold D. split.
  - apply (dlim_ext t0 (fun t => - mean N (fun n => ln (marg (E t) x n)))).
    + intros t. rewrite (C61_generative V g (o t) (E t) N x labels (A t) (batch_at t) HN). reflexivity.
    + apply (derivable_pt_lim_opp (fun t => mean N (fun n => ln (marg (E t) x n)))). apply (mean_diff t0 N (fun n t => ln (marg (E t) x n))). intros n Hn.
      apply (ld_ln t0 (fun t => marg (E t) x n)); [apply (marg_pos V g (o t0) (E t0) N x n (A t0) HB Hn)|]. unfold marg.
      apply (ld_ext t0 (fun t => rsum K (fun k => exp (loglik (E t) x None n k)) * / INR K)).
      { intros t. rewrite classes_at. fold K. unfold Rdiv. f_equal. apply rsum_ext. intros k Hk. destruct (lik_loglik g (o t) (E t) N x n k (A t) (batch_at t) Hn) as (P & <-); [rewrite classes_at; auto|]. apply exp_ln; auto. }
      assert (EX: forall k, (k < K)%nat -> exp (loglik (E t0) x None n k) = lik (E t0) x None n k).
      { intros k Hk. destruct (lik_loglik g (o t0) (E t0) N x n k (A t0) HB Hn Hk) as (P & <-). apply exp_ln; auto. }
      replace (rsum K (fun k => p n k * d n k)) with (rsum K (fun k => p n k * d n k) + 0) by ring.
      apply (ld_mult t0 (fun t => rsum K (fun k => exp (loglik (E t) x None n k))) (fun _ => / INR K)); [|apply ld_const].
      eapply ld_eq; [|apply (ld_rsum t0 K (fun k t => exp (loglik (E t) x None n k)) (d n))].
      * apply rsum_ext. intros k Hk. unfold p. rewrite (rsum_ext K _ (fun k => lik (E t0) x None n k)) by auto. rewrite EX by auto. reflexivity.
      * apply rsum_pos; auto. intros. apply exp_pos.
      * intros k Hk. apply ld_exp. apply Hd; auto.
  - rewrite Rabs_Ropp. apply mean_le; auto. intros n Hn.
    assert (P: forall k, (k < K)%nat -> 0 < lik (E t0) x None n k) by (intros k Hk; apply (lik_loglik g (o t0) (E t0) N x n k (A t0) HB Hn Hk)).
    assert (S: 0 < rsum K (fun k => lik (E t0) x None n k)) by (apply rsum_pos; auto).
    apply Rle_trans with (rsum K (fun k => p n k * B)).
    + apply rsum_abs_le. intros k Hk. assert (0 <= p n k) by (unfold p; apply Rmult_le_pos; [left; auto|left; apply Rinv_0_lt_compat; auto]).
      rewrite Rabs_mult, (Rabs_pos_eq (p n k)) by auto. apply Rmult_le_compat_l; auto. apply Hd; auto.
    + rewrite rsum_scal_r. unfold p, Rdiv. rewrite rsum_scal_r, Rinv_r by lra. lra.
Qed.
Lemma lightning_diff : let D := - mean N (fun n => mean (e_K (E t0)) (d n)) in
  derivable_pt_lim (fun t => loss_value (negative_log_likelihood (E t) x RMean)) t0 D /\ Rabs D <= B.
Proof.
  pose proof (classes_pos g (o t0) (E t0) (A t0)) as HK. set (K := e_K (E t0)) in *. intros D. unfold D. split.
  - apply (dlim_ext t0 (fun t => - mean N (fun n => mean K (fun k => loglik (E t) x None n k)))).
    + intros t. rewrite (proj1 (C61_lightning V g (o t) (E t) N x (A t) (batch_at t)) HN). rewrite classes_at. fold K. cbn [loss_value toR]. f_equal. unfold mean. f_equal.
      apply rsum_ext. intros n Hn. f_equal. apply rsum_ext. intros k Hk. symmetry. apply (lik_loglik g (o t) (E t) N x n k (A t) (batch_at t) Hn). rewrite classes_at; auto.
    + apply (derivable_pt_lim_opp (fun t => mean N (fun n => mean K (fun k => loglik (E t) x None n k)))). apply (mean_diff t0 N (fun n t => mean K (fun k => loglik (E t) x None n k))).
      intros n Hn. apply (mean_diff t0 K (fun k t => loglik (E t) x None n k)). intros k Hk. apply Hd; auto.
  - rewrite Rabs_Ropp. apply mean_le; auto. intros n Hn. apply mean_le; auto. intros k Hk. apply Hd; auto.
Qed.
Lemma labels_diff labels : (1 < e_K (E t0))%nat -> labelled (e_K (E t0)) N labels ->
  let D := - mean N (fun n => d n (get labels [n])) in
  derivable_pt_lim (fun t => loss_value (train_loss (E t) true x labels)) t0 D /\ Rabs D <= B.
Proof.
  intros HK HL D. unfold D. split.
  - apply (dlim_ext t0 (fun t => - mean N (fun n => loglik (E t) x None n (get labels [n])))).
    + intros t. destruct (C62_classification V g (o t) (E t) N x labels (A t) (batch_at t) HN) as (loss & ce & gen & acc & -> & _ & _ & -> & _); try (rewrite classes_at; auto).
      cbn [loss_value toR]. f_equal. unfold mean. f_equal. apply rsum_ext. intros n Hn. symmetry. apply (lik_loglik g (o t) (E t) N x n _ (A t) (batch_at t) Hn). rewrite classes_at. apply HL; auto.
    + apply (derivable_pt_lim_opp (fun t => mean N (fun n => loglik (E t) x None n (get labels [n])))). apply (mean_diff t0 N (fun n t => loglik (E t) x None n (get labels [n]))).
      intros n Hn. apply Hd; auto. apply HL; auto.
  - rewrite Rabs_Ropp. apply mean_le; auto. intros n Hn. apply Hd; auto. apply HL; auto.
Qed.
End Losses.

(** The losses of the training programs are differentiable, with the same bound for every batch. *)
Lemma count_le {V} (E : einet V) x ms n : 0 <= count_observed E x ms n <= INR (e_F E * e_C E).
Proof.
  unfold count_observed. rewrite mult_INR. split.
  - apply rsum_nonneg. intros f _. apply rsum_nonneg. intros c _. destruct (observed x ms n c f); lra.
  - rewrite <- (Rmult_1_r (INR (e_F E) * INR (e_C E))), Rmult_assoc, <- rsum_const. apply rsum_le. intros f _. rewrite <- rsum_const. apply rsum_le. intros c _. destruct (observed x ms n c f); lra.
Qed.
Theorem C73_losses : forall V g (o : R -> oracle V) E t0 dl dm dp N x labels delta eps, curve g o E t0 dl dm dp -> batch (E t0) N x -> (0 < N)%nat ->
  0 <= delta -> 0 <= eps -> slower (E t0) delta eps dl dm dp ->
  let B := 2 * delta * INR (nodes g) + eps * INR (e_F (E t0) * e_C (E t0)) in
  (exists D, derivable_pt_lim (fun t => loss_value (train_loss (E t) false x labels)) t0 D /\ Rabs D <= B) /\
  (exists D, derivable_pt_lim (fun t => loss_value (negative_log_likelihood (E t) x RMean)) t0 D /\ Rabs D <= B) /\
  ((1 < e_K (E t0))%nat -> labelled (e_K (E t0)) N labels -> exists D, derivable_pt_lim (fun t => loss_value (train_loss (E t) true x labels)) t0 D /\ Rabs D <= B).
Proof.
  intros V g o E t0 dl dm dp N x labels delta eps HC HB HN Hd He Hs B. pose proof (cu_accepted _ _ _ _ _ _ _ HC t0) as A.
  assert (X: forall n k, (n < N)%nat -> (k < e_K (E t0))%nat -> derivable_pt_lim (fun t => loglik (E t) x None n k) t0
    (slope (E t0) x None n (gG (E t0) x None n k) (gm (E t0) x None n k) (gl (E t0) x None n k) dl dm dp) /\
    Rabs (slope (E t0) x None n (gG (E t0) x None n k) (gm (E t0) x None n k) (gl (E t0) x None n k) dl dm dp) <= B).
  { intros n k Hn Hk. split; [eapply slope_holds; eauto; split; [exact HB|exact I]|]. destruct Hs as (H1 & H2 & H3).
    assert (HG: gradient g (E t0) (gG (E t0) x None n k) (gm (E t0) x None n k) (gl (E t0) x None n k)) by (eapply gradient_holds; eauto).
    eapply Rle_trans; [apply (slope_le g (o t0) (E t0) N x None n _ _ _ dl dm dp delta eps A (conj HB I) Hn HG Hd H1 H2 H3)|].
    unfold B. destruct (count_le (E t0) x None n) as (_ & C). nra. }
  split; [eexists; exact (generative_diff g o E t0 dl dm dp HC N x B _ HB HN X labels)|]. split; [eexists; exact (lightning_diff g o E t0 dl dm dp HC N x B _ HB HN X)|].
  intros HK HL. eexists. exact (labels_diff g o E t0 dl dm dp HC N x B _ HB HN X labels HK HL).
Qed.
Print Assumptions C73_losses.

(** ** Concrete case: one logit of the first layer moves, in a network on 5 features in 2 channels with 3 classes and 2 repetitions *)
Definition ex_idx : list nat := [1; 0; 0; 0; 0]%nat.
Definition ex_w (idx : list nat) : R := if list_eq_dec Nat.eq_dec idx ex_idx then 1 else 0.
Definition ex_line_o (t : R) : oracle nat :=
  mkOracle (fun i idx => Fin (INR (list_sum (i :: idx)) + t * ex_w idx)) (fun idx => Fin (INR (list_sum idx) + t * ex_w idx)) (fun idx => Fin (INR (list_sum idx) + t * ex_w idx)) grow
    [1; 2; 1; 1]%nat ex_td_perm (fun F C L Rn => Ok (coin third F C L Rn)).
Definition ex_line (t : R) : einet nat :=
  match build ex_td_g (ex_line_o t) with Ok E => E | Err _ => mkE 0 0 0 0 0 (LBase (coin third 0 0 0 0)) None [] None (None) end.
Definition shifted (t : R) : lrel := fun f f' => forall idx, toR (f' idx) = toR (f idx) + t * ex_w idx.
Lemma ex_line_oracle t : oracle_ok ex_td_g (ex_line_o t).
Proof.
  pose proof ex_td_oracle as H. split; cbn [ex_line_o o_logits o_top o_mix o_root o_sizes o_perm o_leaf]; try (intros; reflexivity).
  - apply (ok_sizes _ _ H).
  - apply (ok_perm _ _ H).
  - eexists. split; [reflexivity|]. split; [apply coin_ok|]. repeat split.
Qed.
Lemma ex_line_build t : accepted ex_td_g (ex_line_o t) (ex_line t) /\ leafE (ex_line t) = coin third 5 2 2 2.
Proof.
  destruct (build_succeeds ex_td_g (ex_line_o t)) as (E & HE).
  - apply plain_valid; try lia; try lra; try congruence. simpl; lia.
  - reflexivity.
  - apply ex_line_oracle.
  - exists 0%R. split; [constructor|lra].
  - cbn [ex_td_g plain g_depth zval]. lia.
  - discriminate.
  - unfold ex_line. rewrite HE. split; [split; [reflexivity|apply ex_line_oracle|exact HE]|].
    unfold build in HE. apply bind_ok in HE as ([] & _ & HE). cbn [ex_td_g plain g_struct] in HE. unfold build_top_down in HE.
    apply bind_ok in HE as (? & _ & HE). apply bind_ok in HE as (? & _ & HE). apply bind_ok in HE as (? & _ & HE).
    apply bind_ok in HE as (lf & Hl & HE). apply bind_ok in HE as (? & _ & HE). apply bind_ok in HE as (? & _ & HE).
    inversion HE. unfold leafE. cbn [e_leaf]. unfold build_input in Hl. cbn [ex_line_o o_leaf] in Hl.
    unfold ex_td_g, plain in Hl. cbn [g_F g_C g_L g_R] in Hl. rewrite !nval_nat in Hl. cbn [bind Nat.eqb] in Hl. inversion Hl. reflexivity.
Qed.
Lemma ex_line_alike t : alike (shifted t) (ex_line_o 0) (ex_line_o t).
Proof. split; cbn [ex_line_o o_logits o_top o_mix o_sizes o_perm]; auto; try (intros i idx; cbn [toR]; ring); intros idx; cbn [toR]; ring. Qed.
Lemma new_layer_eq ws lg nf sin sout nrep drop L : new_layer ws lg nf sin sout nrep drop = Ok L -> L = mkL nf sin sout nrep (mkT (ws (mkL nf sin sout nrep (mkT [] lg))) lg).
Proof.
  intros H. unfold new_layer in H. repeat (apply bind_ok in H as (? & _ & H)). injection H as <-. reflexivity.
Qed.
Lemma ex_line_layers : exists A B, e_layers (ex_line 0) = [LEin A; LEin B] /\ shape (logits A) = [2; 3; 2; 2; 2]%nat /\ shape (logits B) = [1; 3; 2; 3; 3]%nat.
Proof.
  pose proof (ac_build _ _ _ (proj1 (ex_line_build 0))) as HE. unfold build in HE. apply bind_ok in HE as ([] & _ & HE). cbn [ex_td_g plain g_struct] in HE. unfold build_top_down in HE.
  apply bind_ok in HE as (ls & Hls & HE). apply bind_ok in HE as (ls' & Hls' & HE). apply bind_ok in HE as (? & _ & HE).
  apply bind_ok in HE as (lf & Hl & HE). apply bind_ok in HE as (? & _ & HE). apply bind_ok in HE as (? & _ & HE). inversion HE as [HE']. clear HE.
  cbn [e_layers]. change (zval (g_depth ex_td_g) =? 0)%Z with false in Hls'. injection Hls' as <-. change (seq 1 (nval (g_depth ex_td_g))) with [1; 2]%nat in Hls.
  cbn [mapM] in Hls. apply bind_ok in Hls as (a & Ha & Hls). apply bind_ok in Hls as (bs & Hb & Hls). apply bind_ok in Hb as (b & Hb & Hbs). injection Hbs as <-. injection Hls as <-.
  unfold top_layer, new_intermediate in Ha, Hb. cbn [ex_td_g plain g_layer] in Ha, Hb.
  apply bind_ok in Ha as (A & Ha & Ea). apply bind_ok in Hb as (B & Hb & Eb). injection Ea as <-. injection Eb as <-.
  exists B, A. split; [reflexivity|]. rewrite (new_layer_eq _ _ _ _ _ _ _ _ Ha), (new_layer_eq _ _ _ _ _ _ _ _ Hb). split; reflexivity.
Qed.
Lemma ex_line_curve : curve ex_td_g ex_line_o ex_line 0 (only_logit 0 ex_idx) (fun _ => 0) (fun _ _ _ _ _ => 0).
Proof.
  destruct ex_line_layers as (A & B & EL & SA & SB). pose proof (fun t => proj1 (build_close (shifted t) ex_td_g _ _ _ _ (ex_line_alike t) (ac_build _ _ _ (proj1 (ex_line_build 0))) (ac_build _ _ _ (proj1 (ex_line_build t))))) as CN.
  assert (LIN: forall a w, derivable_pt_lim (fun t => a + t * w) 0 w).
  { intros a w. apply (dlim_eq 0 _ (0 + (1 * w + 0 * 0))); [ring|]. apply (derivable_pt_lim_plus (fun _ => a) (fun t => t * w)); [apply derivable_pt_lim_const|].
    apply (derivable_pt_lim_mult (fun t => t) (fun _ => w)); [apply derivable_pt_lim_id|apply derivable_pt_lim_const]. }
  assert (LG: forall j idx t, inb (shape (logits_at (ex_line 0) j)) idx -> toR (get (logits_at (ex_line t) j) idx) = toR (get (logits_at (ex_line 0) j) idx) + t * ex_w idx).
  { intros j idx t Hi. pose proof (cn_layers _ _ _ (CN t)) as CL. unfold logits_at in *. rewrite EL in CL, Hi |- *. inversion CL as [|? l1 ? ls C1 CL' E1 E2]. inversion CL' as [|? l2 ? ls2 C2 CL2 E3 E4]. inversion CL2. subst.
    destruct l1; try contradiction C1. destruct l2; try contradiction C2. destruct C1 as (_ & _ & _ & _ & C1), C2 as (_ & _ & _ & _ & C2).
    destruct j as [|[|j]]; cbn [nth_error layer_logits] in *; auto. destruct j; cbn [nth_error] in Hi; destruct idx as [|? [|]]; cbn in Hi; try tauto; lia. }
  split.
  - intros t. apply ex_line_build.
  - reflexivity.
  - reflexivity.
  - intros j idx Hi. apply (dlim_ext 0 (fun t => toR (get (logits_at (ex_line 0) j) idx) + t * ex_w idx)); [intros t; symmetry; auto|].
    eapply dlim_eq; [|apply LIN]. unfold only_logit, ex_w. destruct (Nat.eqb_spec j 0) as [->|Hj]; auto. destruct (list_eq_dec Nat.eq_dec idx ex_idx) as [->|]; auto. exfalso.
    unfold logits_at in Hi. rewrite EL in Hi. destruct j as [|[|j]]; [lia| |].
    + cbn [nth_error layer_logits] in Hi. rewrite SB in Hi. cbn in Hi. lia.
    + destruct j; cbn in Hi; tauto.
  - intros idx Hi. unfold mix_logits in *. pose proof (fun t => cn_mixing _ _ _ (CN t)) as CM. destruct (e_mixing (ex_line 0)) as [m|] eqn:Em.
    + apply (dlim_ext 0 (fun t => toR (get (logits m) idx) + t * 0)); [|apply LIN]. intros t. specialize (CM t). destruct (e_mixing (ex_line t)) as [m'|]; [|contradiction CM]. destruct CM as (_ & _ & _ & _ & CM). rewrite CM.
      assert (W: ex_w idx = 0); [|rewrite W; reflexivity]. unfold ex_w. destruct (list_eq_dec Nat.eq_dec idx ex_idx) as [->|]; auto. exfalso.
      assert (SM: shape (logits m) = [1; 3; 2]%nat); [|rewrite SM in Hi; cbn in Hi; tauto].
      pose proof (mix_shape ex_td_g (ex_line_o 0) (ex_line 0) (proj1 (ex_line_build 0))) as MS. unfold mix_logits in MS. rewrite Em in MS.
      destruct (build_inv ex_td_g (ex_line_o 0) (ex_line 0) eq_refl (ex_line_oracle 0) (ac_build _ _ _ (proj1 (ex_line_build 0)))) as (_ & _ & _ & ER & EK). rewrite MS; rewrite ER; [|cbn; lia]. rewrite EK. reflexivity.
    + destruct idx as [|? [|]]; cbn in Hi; try tauto; lia.
  - intros t v. rewrite !(proj2 (ex_line_build _)). reflexivity.
  - intros c f l r v _ _ _ _ _. apply (dlim_ext 0 (fun _ => toR (lf_logp (leafE (ex_line 0)) [c; f; l; r] v))); [|apply derivable_pt_lim_const]. intros t. rewrite !(proj2 (ex_line_build _)). reflexivity.
Qed.
Example C73_ex : exists d, derivable_pt_lim (fun t => loglik (ex_line t) (two_rows 2 5 ex_missing) None 1 2) 0 d /\ Rabs d <= 1.
Proof.
  destruct (ex_line_build 0) as (A & L). destruct (build_inv ex_td_g (ex_line_o 0) (ex_line 0) eq_refl (ex_line_oracle 0) (ac_build _ _ _ A)) as (_ & EF & EC & ER & EK).
  cbn [ex_td_g plain g_F g_C g_R g_K] in *. rewrite nval_nat in *.
  apply (C73_logit nat ex_td_g ex_line_o ex_line 0 0 ex_idx 2).
  - destruct ex_line_layers as (a & b & -> & _). cbn. lia.
  - destruct ex_line_layers as (a & b & EL & SA & _). unfold logits_at. rewrite EL. cbn [nth_error layer_logits]. rewrite SA. cbn. lia.
  - exact ex_line_curve.
  - split; [|exact I]. apply two_rows_batch; auto; [rewrite L; intros u; reflexivity|exact ex_missing_lt].
  - lia.
  - lia.
Qed.
