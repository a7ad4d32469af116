(** C77, C78: convolutional circuits under changes of their parameters; losses and gradients. *)
From Coq Require Import List Arith Lia Bool Reals Lra FunctionalExtensionality.
Import ListNotations.
From Verif Require Import Base RSum Num Tensor Prob Layers Circuit Net RefFwd Leaf RefLeaf TypeChecks Einet RefEinet Spec RefSpec Family RefFamily ConvPc RefConv RefConvNet RefConvS PropConv Ex
  Density RefDensity Gauss Integral PropDensity RefConvD RefTrees PropTrees PropConvD Train RefTrain PropTrain RefPerturb RefGrad PropPerturb PropGrad RefConvG ConvTrain.
Local Open Scope R_scope.
Local Arguments Nat.div : simpl never. Local Arguments Nat.modulo : simpl never. Local Arguments Nat.sub : simpl never.
Local Arguments Nat.mul : simpl never. Local Arguments Nat.add : simpl never.

(** * Vocabulary *)
(** Entry [n] of model(x) *)
Definition cloglik {V} (P : convpc V) (st : cstate) (x : tensor (option V)) (n : nat) : R :=
  match snd (conv_forward P st x) with Ok y => toR (get y [n]) | Err _ => 0 end.
(** Number of observed pixels of image [n], each channel counted *)
Definition count_pixels {V} (C H W : nat) (x : tensor (option V)) (n : nat) : R :=
  rsum C (fun c => rsum H (fun h => rsum W (fun w => match get x [n; c; h; w] with Some _ => 1 | None => 0 end))).
(** Number of positions at which the circuit has sums: one at the root, and those of the layers. *)
Definition early (g : cconfig) : nat := match cc_order g with OSumProd => 0 | _ => 1 end.
Definition conv_positions (g : cconfig) (H W : nat) : nat :=
  match cc_struct g with
  | CBottomUp => S (list_sum (map (fun i => (H / cc_kernel g ^ (i + early g)) * (W / cc_kernel g ^ (i + early g)))%nat (seq 0 (length (cc_channels g) - 1))))
  | CTopDown => S (list_sum (map (fun i => 4 ^ (S i - early g))%nat (seq 0 (length (cc_channels g)))))
  | COther => 0
  end.
(** Logits of two oracles differ by at most [delta]. *)
Definition conv_within {V} (delta : R) (o o' : coracle V) : Prop :=
  forall i s idx, inb s idx -> Rabs (toR (get (co_logits o i s) idx) - toR (get (co_logits o' i s) idx)) <= delta.

(** * Positions *)
Lemma sum_seq_S f m : list_sum (map f (seq 0 (S m))) = (f 0 + list_sum (map (fun i => f (S i)) (seq 0 m)))%nat.
Proof. cbn [seq map]. rewrite <- seq_shift, map_map. reflexivity. Qed.
Lemma cls_nodes_cons l ls : cls_nodes (l :: ls) = (cl_nodes l + cls_nodes ls)%nat.
Proof. reflexivity. Qed.
Definition ord_early (ord : corder) : nat := match ord with OSumProd => 0 | _ => 1 end.
Lemma new_sumprod_nodes {V} (o : coracle V) i cin cout h w kh kw ord l : ord <> OOther -> new_sumprod o i cin cout h w kh kw ord = Ok l ->
  (kh <> 0)%nat /\ (kw <> 0)%nat /\ cl_nodes l = ((h / kh ^ ord_early ord) * (w / kw ^ ord_early ord))%nat.
Proof.
  unfold new_sumprod. intros Ho E. destruct (Nat.eqb_spec kh 0); [discriminate|]. destruct (Nat.eqb_spec kw 0); [discriminate|]. cbn [negb andb guard bind] in E. split; auto. split; auto.
  destruct ord; [| |congruence]; injection E as <-; unfold cl_nodes; cbn [cl_sum new_csum cs_h cs_w ord_early Nat.pow]; rewrite ?Nat.div_1_r, ?Nat.mul_1_r; reflexivity.
Qed.
Lemma bottom_nodes {V} (o : coracle V) ord k : forall chs i h w ls, ((length chs = 1)%nat \/ ord <> OOther) -> (0 < h)%nat -> (0 < w)%nat -> (0 < h / k ^ (length chs - 1))%nat -> (0 < w / k ^ (length chs - 1))%nat ->
  build_bottom o ord k i chs h w = Ok ls ->
  cls_nodes ls = S (list_sum (map (fun i => (h / k ^ (i + ord_early ord)) * (w / k ^ (i + ord_early ord)))%nat (seq 0 (length chs - 1)))).
Proof.
  induction chs as [|c [|c' rest] IH]; intros i h w ls Ho Hh Hw Dh Dw E.
  - discriminate.
  - cbn [build_bottom] in E. apply bind_ok in E as (l & El & E). injection E as <-. destruct (new_sumprod_nodes o i c 1 h w h w OProdSum l ltac:(discriminate) El) as (_ & _ & En).
    rewrite cls_nodes_cons, En. cbn [length ord_early Nat.pow]. rewrite !Nat.mul_1_r, !Nat.div_same by lia. reflexivity.
  - change (build_bottom o ord k i (c :: c' :: rest) h w) with
      (l <- new_sumprod o i c c' h w k k ord ;; ls <- build_bottom o ord k (S i) (c' :: rest) (h / k) (w / k) ;; Ok (l :: ls)) in E.
    apply bind_ok in E as (l & El & E). apply bind_ok in E as (ls1 & Es & E). injection E as <-.
    destruct Ho as [X|Ho]; [cbn in X; lia|]. destruct (new_sumprod_nodes o i c c' h w k k ord l Ho El) as (Kn & _ & En).
    assert (DD: forall z j, (z / k / k ^ j = z / k ^ S j)%nat) by (intros z j; rewrite Nat.div_div by (auto; apply Nat.pow_nonzero; auto); reflexivity).
    cbn [length] in Dh, Dw |- *. replace (S (S (length rest)) - 1)%nat with (S (length rest)) in * by lia.
    assert (Ph: (0 < h / k)%nat). { rewrite <- (DD h (length rest)) in Dh. destruct (h / k)%nat; [|lia]. rewrite Nat.div_0_l in Dh by (apply Nat.pow_nonzero; auto). lia. }
    assert (Pw: (0 < w / k)%nat). { rewrite <- (DD w (length rest)) in Dw. destruct (w / k)%nat; [|lia]. rewrite Nat.div_0_l in Dw by (apply Nat.pow_nonzero; auto). lia. }
    rewrite cls_nodes_cons, En, sum_seq_S. rewrite (IH (S i) (h / k)%nat (w / k)%nat ls1); auto.
    + cbn [length]. replace (S (length rest) - 1)%nat with (length rest) by lia. rewrite Nat.add_0_l. rewrite <- plus_n_Sm. f_equal. f_equal. f_equal. apply map_ext. intros j. rewrite !DD. reflexivity.
    + cbn [length]. replace (S (length rest) - 1)%nat with (length rest) by lia. rewrite DD. auto.
    + cbn [length]. replace (S (length rest) - 1)%nat with (length rest) by lia. rewrite DD. auto.
Qed.
Lemma top_nodes {V} (o : coracle V) ord chs n : ord <> OOther -> forall i a acc r h1 w1, build_top o ord chs n i a a acc = Ok (r, h1, w1) ->
  cls_nodes r = (cls_nodes acc + list_sum (map (fun j => (a * 2 ^ (S j - ord_early ord)) * (a * 2 ^ (S j - ord_early ord)))%nat (seq 0 i)))%nat.
Proof.
  intros Ho. induction i as [|i IH]; intros a acc r h1 w1 E.
  - cbn in E. injection E as <- _ _. cbn. lia.
  - cbn [build_top] in E. apply bind_ok in E as (l & El & E). destruct (new_sumprod_nodes _ _ _ _ _ _ _ _ _ _ Ho El) as (_ & _ & En).
    rewrite (IH _ _ _ _ _ E), cls_nodes_cons, En, sum_seq_S. rewrite Nat.add_assoc. f_equal.
    + rewrite Nat.add_comm. f_equal. destruct ord; [| |congruence]; cbn [ord_early Nat.pow]; rewrite ?Nat.div_1_r.
      * change (2 ^ (1 - 0))%nat with 2%nat. reflexivity.
      * change (2 * 1)%nat with 2%nat. rewrite !Nat.div_mul by lia. change (2 ^ (1 - 1))%nat with 1%nat. lia.
    + f_equal. apply map_ext. intros j. replace (S (S j) - ord_early ord)%nat with (S (S j - ord_early ord)) by (destruct ord; cbn [ord_early]; lia). cbn [Nat.pow]. ring.
Qed.
Lemma positions_ok {V} g C H W (o : coracle V) P : conv_accepted g C H W o P -> conv_fits g H W -> cls_nodes (cp_layers P) = conv_positions g H W.
Proof.
  intros A (_ & Hf). destruct (build_conv_inv _ _ _ _ _ _ A) as (c0 & rest & EC & _ & _ & _ & _ & _ & PH & PW & _ & HB). unfold conv_positions, early. destruct (cc_struct g).
  - destruct Hf as (Ho & _). destruct HB as (acc & h & w & Eb & ->). rewrite cls_nodes_cons. change (cl_nodes (CProd (H / h) (W / w))) with 0%nat. rewrite (top_nodes o _ _ _ Ho _ _ _ _ _ _ Eb).
    rewrite cls_nodes_cons. change (cl_nodes (CSum (new_csum o 0 (last (cc_channels g) 0%nat) 1 1 1))) with 1%nat. rewrite Nat.add_0_l. change (cls_nodes []) with 0%nat. rewrite Nat.add_0_r.
    rewrite Nat.add_1_l. f_equal. f_equal. apply map_ext. intros j. fold (ord_early (cc_order g)). rewrite Nat.mul_1_l, <- Nat.pow_mul_l. reflexivity.
  - destruct Hf as (Ho & Dh & Dw). fold (ord_early (cc_order g)).
    assert (Q: forall z, (0 < z)%nat -> Nat.divide (cc_kernel g ^ (length (cc_channels g) - 1)) z -> (0 < z / cc_kernel g ^ (length (cc_channels g) - 1))%nat).
    { intros z Hz [q Hq]. subst z. destruct (Nat.eq_dec (cc_kernel g ^ (length (cc_channels g) - 1)) 0) as [E0|E0]; [rewrite E0 in Hz; lia|]. rewrite Nat.div_mul by auto. nia. }
    eapply bottom_nodes; eauto.
  - contradiction.
Qed.

(** * C77: changes of the parameters *)
Section Near.
Context {V : Type} (g : cconfig) (C H W : nat) (o o' : coracle V) (P P' : convpc V) (delta eps : R).
Hypothesis (A : conv_accepted g C H W o P) (A' : conv_accepted g C H W o' P') (HF : conv_fits g H W) (Hw : conv_within delta o o') (Hl : leaves_within eps (cp_leaf P) (cp_leaf P')).
Lemma oracle_shape (a : coracle V) i s : conv_oracle a -> shape (co_logits a i s) = s.
Proof. intros HO. apply (cor_logits _ HO i s). Qed.
Lemma images_other N x : images P N x -> images P' N x.
Proof.
  intros (S & Hs). destruct (build_same any_t o o' (fun _ _ => I) g C H W P P' A A') as (E1 & E2 & E3 & E4 & _). unfold images. rewrite E1, E2, E3. split; auto.
  intros n c h w v Hn Hc Hh Hw' Hv. destruct Hl as (-> & _). eauto.
Qed.
Lemma cloglik_eval (a : coracle V) (Q : convpc V) us st N x n : conv_accepted g C H W a Q -> conv_ok Q us -> images Q N x -> (n < N)%nat ->
  exists y, snd (conv_forward Q st x) = Ok y /\ get y [n] = Fin (cloglik Q st x n) /\ cloglik Q st x n = ln (neteval (conv_net Q us 1) (lval (pdf (cp_leaf Q)) (image Q x n)) 0).
Proof.
  intros AQ HQ Hx Hn. destruct (conv_forward_ok Q us HQ st N x Hx) as (cas & y & E & _ & _ & G). exists y. unfold cloglik. rewrite E. cbn [snd]. rewrite (G n Hn). auto.
Qed.
Lemma count_flat x n : rsum (H * W) (fun f => rsum C (fun c => match get x [n; c; f / W; f mod W]%nat with Some _ => eps | None => 0 end)) = eps * count_pixels C H W (x : tensor (option V)) n.
Proof.
  unfold count_pixels. rewrite rsum_swap, <- rsum_scal_l. apply rsum_ext. intros c _. rewrite rsum_flat, <- rsum_scal_l. apply rsum_ext. intros h _. rewrite <- rsum_scal_l.
  apply rsum_ext. intros w Hw'. rewrite flat_div, flat_mod by auto. destruct (get x [n; c; h; w]); lra.
Qed.
Lemma conv_near N x n st st' : images P N x -> (n < N)%nat ->
  exists y y', snd (conv_forward P st x) = Ok y /\ snd (conv_forward P' st' x) = Ok y' /\ isfin (get y [n]) = true /\ isfin (get y' [n]) = true /\
    Rabs (toR (get y [n]) - toR (get y' [n])) <= 2 * delta * INR (conv_positions g H W) + eps * count_pixels C H W x n.
Proof.
  intros Hx Hn. destruct (accepted_conv_ok _ _ _ _ _ _ A HF) as (us & HP). destruct (accepted_conv_ok _ _ _ _ _ _ A' HF) as (us' & HP').
  destruct (cloglik_eval o P us st N x n A HP Hx Hn) as (y & Ey & Gy & Ly). destruct (cloglik_eval o' P' us' st' N x n A' HP' (images_other N x Hx) Hn) as (y' & Ey' & Gy' & Ly').
  exists y, y'. split; auto. split; auto. rewrite Gy, Gy'. split; auto. split; auto. cbn [toR]. rewrite Ly, Ly'.
  assert (HR: forall i s, within_t delta (co_logits o i s) (co_logits o' i s)).
  { intros i s idx Hi. apply Hw. rewrite (oracle_shape o) in Hi by apply A. exact Hi. }
  destruct (build_same (within_t delta) o o' HR g C H W P P' A A') as (E1 & E2 & E3 & E4 & HS).
  destruct (build_conv_inv _ _ _ _ _ _ A) as (c0 & rest & _ & D1 & D2 & D3 & D4 & _).
  assert (NL: netlike (2 * delta * INR (conv_positions g H W)) 0 (cls_bs delta (cp_layers P)) (conv_net P us 1) (conv_net P' us' 1)).
  { constructor; cbn [conv_net nF nC nL nR nD nCls ngroup nls nmix]; auto; try congruence.
    - rewrite (clays_fun _ _ _ _ _ _ _ _ (co_clays _ _ HP)), (clays_fun _ _ _ _ _ _ _ _ (co_clays _ _ HP')), E2, E3, E4. eapply cls_like; [apply (co_clays _ _ HP)|auto].
    - intros. apply near_refl.
    - rewrite (clays_fun _ _ _ _ _ _ _ _ (co_clays _ _ HP)), (cls_total _ _ _ _ _ _ _ _ _ (co_clays _ _ HP)), (positions_ok g C H W o P A HF). lra. }
  set (e := fun c f => match image P x n c f with Some _ => eps | None => 0 end).
  pose proof (neteval_near _ _ _ _ _ (lval (pdf (cp_leaf P)) (image P x n)) (lval (pdf (cp_leaf P')) (image P' x n)) e 0%nat
    (conv_net_wf P us HP 1) (conv_net_wf P' us' HP' 1) NL ltac:(cbn; lia)) as X.
  assert (EI: forall c f, image P' x n c f = image P x n c f) by (intros; unfold image; rewrite E3; reflexivity).
  apply near_ln; try (apply neteval_pos; [apply conv_net_wf; auto|cbn; lia|intros; apply lval_pos]).
  replace (2 * delta * INR (conv_positions g H W) + eps * count_pixels C H W x n) with (2 * delta * INR (conv_positions g H W) + 0 + rsum (nF (conv_net P us 1)) (fun f => rsum (nC (conv_net P us 1)) (fun c => e c f))).
  2:{ rewrite <- count_flat. cbn [conv_net nF nC]. rewrite D1, D2, D3. rewrite Rplus_0_r. f_equal. apply rsum_ext. intros f _. apply rsum_ext. intros c _. unfold e, image. rewrite D3. reflexivity. }
  apply X. clear X. cbn [conv_net nF nC nL nR]. intros c f l r Hc Hf Hl' Hr. split; [apply lval_pos|]. split; [apply lval_pos|]. unfold lval, e. rewrite EI.
  destruct (image P x n c f) as [v|] eqn:Ev; [|apply near_refl]. unfold pdf. pose proof (co_leafs _ _ HP) as LP.
  assert (Hs: lf_supp (cp_leaf P) v = true).
  { destruct Hx as (_ & Hs). destruct (flat_split f (cp_H P) (cp_W P) Hf) as (h & w & Hh & Hw' & ->). unfold image in Ev. rewrite flat_div, flat_mod in Ev by auto. apply (Hs n c h w v); auto. }
  destruct Hl as (_ & Hl2). specialize (Hl2 c f l r v). rewrite (co_C _ LP), (co_F _ LP), (co_L _ LP), (co_R _ LP) in Hl2. specialize (Hl2 Hc Hf Hl' Hr Hs).
  unfold near. rewrite <- !exp_plus. revert Hl2. unfold Rabs. destruct (Rcase_abs _); intros; split; apply exp_le_compat; lra.
Qed.
End Near.

(** Log-likelihoods of complete and of incomplete images: two models whose logits differ by at most [delta] and whose leaf
    log-probabilities differ by at most [eps]. *)
Theorem C77_loglikelihood : forall V g C H W (o o' : coracle V) P P' delta eps st st' N x,
  conv_accepted g C H W o P -> conv_accepted g C H W o' P' -> conv_fits g H W -> conv_within delta o o' -> leaves_within eps (cp_leaf P) (cp_leaf P') -> images P N x ->
  exists y y', snd (conv_forward P st x) = Ok y /\ snd (conv_forward P' st' x) = Ok y' /\ forall n, (n < N)%nat ->
    isfin (get y [n]) = true /\ isfin (get y' [n]) = true /\
    Rabs (toR (get y [n]) - toR (get y' [n])) <= 2 * delta * INR (conv_positions g H W) + eps * count_pixels C H W x n.
Proof.
  intros V g C H W o o' P P' delta eps st st' N x A A' HF Hw Hl Hx.
  destruct (accepted_conv_ok _ _ _ _ _ _ A HF) as (us & HP). destruct (accepted_conv_ok _ _ _ _ _ _ A' HF) as (us' & HP').
  pose proof (images_other g C H W o o' P P' eps A A' Hl N x Hx) as Hx'.
  destruct (conv_forward_ok P us HP st N x Hx) as (cas & y & Ey & _ & _ & _). destruct (conv_forward_ok P' us' HP' st' N x Hx') as (cas' & y' & Ey' & _ & _ & _).
  exists y, y'. rewrite Ey, Ey'. split; auto. split; auto. intros n Hn.
  destruct (conv_near g C H W o o' P P' delta eps A A' HF Hw Hl N x n st st' Hx Hn) as (z & z' & Ez & Ez' & B). rewrite Ey in Ez. rewrite Ey' in Ez'. cbn [snd] in Ez, Ez'. injection Ez as <-. injection Ez' as <-. exact B.
Qed.
Print Assumptions C77_loglikelihood.
Lemma count_image C H W px : count_pixels C H W (one_image C H W px) 0 = INR (C * H * W).
Proof.
  unfold count_pixels. cbn [one_image get]. rewrite (rsum_ext _ _ (fun _ => INR (H * W))); [rewrite rsum_const, <- mult_INR; f_equal; ring|].
  intros c _. rewrite (rsum_ext _ _ (fun _ => INR W)); [rewrite rsum_const, <- mult_INR; reflexivity|]. intros h _. rewrite rsum_const. ring.
Qed.
(** Sampled images: probabilities change by at most the corresponding factor. *)
Theorem C77_sampling : forall g C H W (o o' : coracle nat) P P' B delta eps st st' N xs,
  conv_accepted g C H W o P -> conv_accepted g C H W o' P' -> conv_fits g H W -> conv_within delta o o' -> leaves_within eps (cp_leaf P) (cp_leaf P') ->
  discrete_leaf B (cp_leaf P) -> discrete_leaf B (cp_leaf P') -> lf_ctx (cp_leaf P) = true -> lf_ctx (cp_leaf P') = true -> st_on st = false -> st_on st' = false ->
  (forall n c h w, (n < N)%nat -> (c < C)%nat -> (h < H)%nat -> (w < W)%nat -> (xs n c h w < B)%nat) ->
  Pr B (cp_leaf P') (snd (conv_sample P' INR st' (free N 1))) (images_are N C H W xs) <=
  exp (INR N * (2 * delta * INR (conv_positions g H W) + eps * INR (C * H * W))) *
  Pr B (cp_leaf P) (snd (conv_sample P INR st (free N 1))) (images_are N C H W xs).
Proof.
  intros g C H W o o' P P' B delta eps st st' N xs A A' HF Hw Hl HB HB' Hx Hx' Hst Hst' Hxs.
  rewrite (C51_law g C H W o P B st N xs), (C51_law g C H W o' P' B st' N xs) by auto.
  set (b := 2 * delta * INR (conv_positions g H W) + eps * INR (C * H * W)).
  replace (INR N * b) with (rsum N (fun _ => b)) by (rewrite rsum_const; ring).
  apply (near_rprod N (fun _ => b)). intros n Hn. destruct (build_conv_inv _ _ _ _ _ _ A) as (c0 & rest & _ & E1 & E2 & E3 & _).
  assert (HI: images P 1 (one_image C H W (xs n))).
  { split; [rewrite E1, E2, E3; reflexivity|]. rewrite E1, E2, E3. intros n0 c h w v _ Hc Hh Hw' Hv. cbn [one_image get] in Hv. injection Hv as <-. rewrite (dl_supp B _ HB). apply Nat.ltb_lt. auto. }
  destruct (C77_loglikelihood nat g C H W o o' P P' delta eps st st' 1 _ A A' HF Hw Hl HI) as (y & y' & Ey & Ey' & Bd).
  destruct (Bd 0%nat ltac:(lia)) as (F1 & F2 & Bd'). rewrite count_image in Bd'. fold b in Bd'. unfold clik. rewrite Ey, Ey'.
  destruct (get y [0]%nat) as [a| | |]; try discriminate F1. destruct (get y' [0]%nat) as [a'| | |]; try discriminate F2. cbn [pval toR] in *.
  split; [left; apply exp_pos|]. split; [left; apply exp_pos|].
  unfold near. rewrite <- !exp_plus. revert Bd'. unfold Rabs. destruct (Rcase_abs _); intros; split; apply exp_le_compat; lra.
Qed.
Print Assumptions C77_sampling.

(** * C78: gradients *)
Definition conv_logits {V} (P : convpc V) (j : nat) : tensor num :=
  match nth_error (cp_layers P) j with Some (CSum s) | Some (CSumProd _ s _ _) => cs_logits s | _ => no_logits end.
(** A curve of models of one configuration: logits and leaf log-probabilities depend on the real number [t], and have the
    derivatives [dl] and [dp] at [t0]. *)
Record conv_curve {V} (g : cconfig) (C H W : nat) (o : R -> coracle V) (P : R -> convpc V) (t0 : R) (dl : nat -> list nat -> R) (dp : nat -> nat -> nat -> V -> R) : Prop := {
  cv_accepted : forall t, conv_accepted g C H W (o t) (P t);
  cv_logits : forall j idx, inb (shape (conv_logits (P t0) j)) idx -> derivable_pt_lim (fun t => toR (get (conv_logits (P t) j) idx)) t0 (dl j idx);
  cv_supp : forall t v, lf_supp (cp_leaf (P t)) v = lf_supp (cp_leaf (P t0)) v;
  cv_leaf : forall c f l v, (c < C)%nat -> (f < H * W)%nat -> (l < cp_L (P t0))%nat -> lf_supp (cp_leaf (P t0)) v = true ->
    derivable_pt_lim (fun t => toR (lf_logp (cp_leaf (P t)) [c; f; l; 0]%nat v)) t0 (dp c f l v) }.
(** What the coefficients are: [G j] those of the logits of layer [j], [Gl] those of the leaves. *)
Record conv_gradient {V} (g : cconfig) (C H W : nat) (P : convpc V) (G : nat -> list nat -> R) (Gl : nat -> nat -> nat -> R) : Prop := {
  cgr_le : forall j idx, inb (shape (conv_logits P j)) idx -> Rabs (G j idx) <= 1;
  cgr_zero : forall j, match shape (conv_logits P j) with
    | [Co; Ci; h; w] => forall a y x, (a < Co)%nat -> (y < h)%nat -> (x < w)%nat -> rsum Ci (fun k => G j [a; k; y; x]) = 0
    | _ => True end;
  cgr_total : rsum (List.length (cp_layers P)) (fun j => isum (shape (conv_logits P j)) (fun idx => Rabs (G j idx))) <= 2 * INR (conv_positions g H W);
  cgr_leaf_pos : forall c f l, (c < C)%nat -> (f < H * W)%nat -> (l < cp_L P)%nat -> 0 <= Gl c f l;
  cgr_leaf_sum : forall c f, (c < C)%nat -> (f < H * W)%nat -> rsum (cp_L P) (fun l => Gl c f l) = 1 }.
Definition conv_slope {V} (C H W : nat) (P : convpc V) (x : tensor (option V)) (n : nat) (G : nat -> list nat -> R) (Gl : nat -> nat -> nat -> R)
    (dl : nat -> list nat -> R) (dp : nat -> nat -> nat -> V -> R) : R :=
  rsum (List.length (cp_layers P)) (fun j => isum (shape (conv_logits P j)) (fun idx => G j idx * dl j idx)) +
  rsum C (fun c => rsum H (fun h => rsum W (fun w => match get x [n; c; h; w] with
    | Some v => rsum (cp_L P) (fun l => Gl c (h * W + w)%nat l * dp c (h * W + w)%nat l v)
    | None => 0 end))).

Lemma conv_logits_at {V} (P : convpc V) j : conv_logits P j = match nth_error (cp_layers P) j with Some l => cl_logits l | None => no_logits end.
Proof. unfold conv_logits, cl_logits. destruct (nth_error (cp_layers P) j) as [[| |]|]; reflexivity. Qed.
Lemma cls_G_length ls : forall S H W cs, List.length (cls_G ls S H W cs) = List.length ls.
Proof. induction ls as [|l ls IH]; intros; cbn; auto. Qed.
Lemma cdots_nth ls : forall Gs dls, List.length Gs = List.length ls -> List.length dls = List.length ls ->
  cdots ls Gs dls = rsum (List.length ls) (fun j => isum (shape match nth_error ls j with Some l => cl_logits l | None => no_logits end) (fun idx => nth j Gs zero_at idx * nth j dls zero_at idx)).
Proof.
  induction ls as [|l ls IH]; intros [|G Gs] [|dl dls] H1 H2; try discriminate H1; try discriminate H2; cbn [cdots List.length]; [rewrite rsum_0; auto|].
  rewrite rsum_head. cbn [nth_error nth]. f_equal. apply IH; auto.
Qed.

Section Net.
Context {V : Type} (g : cconfig) (C H W : nat) (o0 : coracle V) (P0 : convpc V) (us : R -> list ulayer).
Hypothesis (A : conv_accepted g C H W o0 P0) (HF : conv_fits g H W) (HP : conv_ok P0 us).
Context (x : tensor (option V)) (n : nat).
Definition cq (P : convpc V) : leaves := lval (pdf (cp_leaf P)) (image P x n).
Definition the_net (P : convpc V) : cnet := conv_net P (fun T => cls_us T (cp_layers P) (cp_L P) (cp_H P) (cp_W P)) 1.
Definition ccs : list cof := ncoefs (the_net P0) (cq P0) 0.
Definition cgG (j : nat) : list nat -> R := nth j (cls_G (cp_layers P0) (cp_L P0) (cp_H P0) (cp_W P0) ccs) zero_at.
Definition cgl (c f l : nat) : R := nleaf (the_net P0) (cq P0) 0 f l 0.

Lemma net_is P us' : conv_ok P us' -> conv_net P us' 1 = the_net P.
Proof. intros HQ. unfold the_net, conv_net. f_equal. apply (clays_fun _ _ _ _ _ _ _ _ (co_clays _ _ HQ)). Qed.
Let Hwf : cnet_wf (the_net P0).
Proof. rewrite <- (net_is P0 us HP). apply conv_net_wf. exact HP. Qed.
Let Pq : forall c f l r, (c < nC (the_net P0))%nat -> (f < nF (the_net P0))%nat -> (l < nL (the_net P0))%nat -> (r < nR (the_net P0))%nat -> 0 < cq P0 c f l r := fun c f l r _ _ _ _ => lval_pos _ _ _ _ _ _.
Let K0 : (0 < nCls (the_net P0))%nat.
Proof. cbn. lia. Qed.
Lemma cfair : all_fair 1 (npost (the_net P0) (cq P0) 0) (cls_us 1 (cp_layers P0) (cp_L P0) (cp_H P0) (cp_W P0)) ccs.
Proof. apply (ncoefs_fair (the_net P0) (cq P0) 0); auto. Qed.
Lemma cpost : npost (the_net P0) (cq P0) 0 0%nat = 1.
Proof.
  assert (X: rsum 1 (npost (the_net P0) (cq P0) 0) = 1) by (apply (npost_sum (the_net P0)); auto; apply neteval_pos; auto). rewrite rsum_S, rsum_0 in X. lra.
Qed.
Lemma all_cgood : Forall2 cl_good (cp_layers P0) (cls_G (cp_layers P0) (cp_L P0) (cp_H P0) (cp_W P0) ccs).
Proof. eapply cls_good; [apply (co_clays _ _ HP)|apply cpost|apply cfair]. Qed.
Lemma cgood_nth j l : nth_error (cp_layers P0) j = Some l -> cl_good l (cgG j).
Proof.
  unfold cgG. pose proof all_cgood as X. revert j. induction X as [|a b la lb H1 H2 IH]; intros [|j] Hj; try discriminate Hj; cbn in *.
  - injection Hj as <-. exact H1.
  - apply IH. exact Hj.
Qed.
Lemma csum_shape j l s : nth_error (cp_layers P0) j = Some l -> cl_sum l = Some s -> shape (cs_logits s) = [cs_out s; cs_in s; cs_h s; cs_w s].
Proof.
  generalize (co_clays _ _ HP). generalize (cp_L P0) (cp_H P0) (cp_W P0) us (cp_layers P0). intros S0 H0 W0 us0 ls X. revert j.
  induction X as [S1 H1 W1|l0 ls S1 H1 W1 us1 S2 H2 W2 us2 S3 H3 W3 C1 C2 IH]; intros [|j] Ej Es; try discriminate Ej; cbn [nth_error] in Ej; [|exact (IH j Ej Es)].
  injection Ej as ->. assert (Q: exists S0 H0 W0, csum_ok s S0 H0 W0).
  { destruct C1; cbn in Es; try discriminate Es; injection Es as <-; eauto. }
  destruct Q as (S0 & H0 & W0 & Q1 & Q2 & Q3 & _ & _ & (Q4 & _)). rewrite Q4, Q1, Q2, Q3. reflexivity.
Qed.
Lemma cgradient_holds : conv_gradient g C H W P0 cgG cgl.
Proof.
  destruct (build_conv_inv _ _ _ _ _ _ A) as (c0 & rest & _ & E1 & E2 & E3 & _). constructor.
  - intros j idx Hi. rewrite conv_logits_at in Hi. destruct (nth_error (cp_layers P0) j) as [l|] eqn:El; [apply (cgood_nth j l El); auto|]. destruct idx; cbn in Hi; try tauto. lia.
  - intros j. rewrite conv_logits_at. destruct (nth_error (cp_layers P0) j) as [l|] eqn:El; [|exact I]. destruct (cgood_nth j l El) as (_ & Z & _). unfold cl_logits.
    destruct (cl_sum l) as [s|] eqn:Es; [|exact I]. rewrite (csum_shape j l s El Es). apply Z; auto.
  - rewrite <- (positions_ok g C H W o0 P0 A HF). pose proof all_cgood as X. unfold cgG.
    rewrite (rsum_ext _ _ (fun j => isum (shape match nth_error (cp_layers P0) j with Some l => cl_logits l | None => no_logits end) (fun idx => Rabs (nth j (cls_G (cp_layers P0) (cp_L P0) (cp_H P0) (cp_W P0) ccs) zero_at idx)))) by (intros j _; rewrite conv_logits_at; reflexivity).
    induction X as [|a b la lb H1 H2 IH]; [cbn; lra|].
    cbn [List.length]. rewrite rsum_head. cbn [nth_error nth]. rewrite cls_nodes_cons, plus_INR. destruct H1 as (_ & _ & H1). lra.
  - intros c f l Hc Hf Hl. rewrite <- E2, <- E3 in Hf. apply (nleaf_shares (the_net P0) (cq P0) 0 f Hwf K0 Pq Hf); auto.
  - intros c f Hc Hf. rewrite <- E2, <- E3 in Hf. rewrite <- cpost. apply (nleaf_shares (the_net P0) (cq P0) 0 f Hwf K0 Pq Hf). cbn. lia.
Qed.
End Net.

Section Curve.
Context {V : Type} (g : cconfig) (C H W : nat) (o : R -> coracle V) (P : R -> convpc V) (t0 : R) (dl : nat -> list nat -> R) (dp : nat -> nat -> nat -> V -> R).
Hypothesis (HC : conv_curve g C H W o P t0 dl dp) (HF : conv_fits g H W).
Context (N : nat) (x : tensor (option V)) (n : nat).
Hypothesis (Hx : images (P t0) N x) (Hn : (n < N)%nat).
Let A t : conv_accepted g C H W (o t) (P t) := cv_accepted _ _ _ _ _ _ _ _ _ HC t.
Lemma same_conv t : cp_C (P t) = cp_C (P t0) /\ cp_H (P t) = cp_H (P t0) /\ cp_W (P t) = cp_W (P t0) /\ cp_L (P t) = cp_L (P t0) /\ Forall2 (same_clay any_t) (cp_layers (P t0)) (cp_layers (P t)).
Proof. apply (build_same any_t (o t0) (o t) (fun _ _ => I) g C H W (P t0) (P t) (A t0) (A t)). Qed.
Lemma images_at t : images (P t) N x.
Proof.
  destruct (same_conv t) as (E1 & E2 & E3 & E4 & _). destruct Hx as (S & Hs). unfold images. rewrite E1, E2, E3. split; auto.
  intros n' c h w v Hn' Hc Hh Hw Hv. rewrite (cv_supp _ _ _ _ _ _ _ _ _ HC). eauto.
Qed.
Lemma cloglik_at t st : cloglik (P t) st x n = ln (neteval (the_net (P t)) (cq x n (P t)) 0).
Proof.
  destruct (accepted_conv_ok _ _ _ _ _ _ (A t) HF) as (us & HP). destruct (cloglik_eval g C H W (o t) (P t) us st N x n (A t) HP (images_at t) Hn) as (y & _ & _ & ->).
  rewrite (net_is (P t) us HP). reflexivity.
Qed.
Definition clsf : list (R -> clayer) := map (fun j t => match nth_error (cp_layers (P t)) j with Some l => l | None => CProd 1 1 end) (seq 0 (List.length (cp_layers (P t0)))).
Lemma clayers_length t : List.length (cp_layers (P t)) = List.length (cp_layers (P t0)).
Proof. destruct (same_conv t) as (_ & _ & _ & _ & X). clear - X. induction X; cbn; auto. Qed.
Lemma clsf_at t : cls_at clsf t = cp_layers (P t).
Proof.
  unfold cls_at, clsf. rewrite map_map, <- (clayers_length t). generalize (cp_layers (P t)). intros ls. clear.
  induction ls as [|l ls IH]; [reflexivity|]. cbn [List.length seq map nth_error]. f_equal. rewrite <- seq_shift, map_map. exact IH.
Qed.
Lemma clsf_moves : Forall2 (cl_drv t0) clsf (map dl (seq 0 (List.length (cp_layers (P t0))))).
Proof.
  unfold clsf. assert (X: forall j, In j (seq 0 (List.length (cp_layers (P t0)))) -> cl_drv t0 (fun t => match nth_error (cp_layers (P t)) j with Some l => l | None => CProd 1 1 end) (dl j)).
  { intros j Hj. apply in_seq0 in Hj. split.
    - intros t. destruct (same_conv t) as (_ & _ & _ & _ & X). clear - X Hj. revert j Hj. induction X as [|a b la lb H1 H2 IH]; intros j Hj; [cbn in Hj; lia|].
      destruct j as [|j]; cbn [nth_error]; auto. apply IH. cbn in Hj. lia.
    - intros idx Hi. pose proof (cv_logits _ _ _ _ _ _ _ _ _ HC j idx) as X. rewrite conv_logits_at in X.
      assert (T: forall t, exists l, nth_error (cp_layers (P t)) j = Some l).
      { intros t. destruct (nth_error (cp_layers (P t)) j) eqn:En; eauto. apply nth_error_None in En. rewrite clayers_length in En. lia. }
      eapply dlim_ext; [|apply X].
      + intros t. cbv beta. rewrite conv_logits_at. destruct (T t) as (l & ->). reflexivity.
      + destruct (T t0) as (l & El). rewrite El in Hi |- *. exact Hi. }
  induction (seq 0 (List.length (cp_layers (P t0)))) as [|j js IH]; cbn [map]; constructor; [apply X; left; auto|apply IH; intros; apply X; right; auto].
Qed.
Lemma cnet_diff : ndiff t0 (fun t => the_net (P t)) (cls_fam t0 clsf (cp_L (P t0)) (cp_H (P t0)) (cp_W (P t0))) (cls_th (cp_layers (P t0)) (map dl (seq 0 (List.length (cp_layers (P t0)))))) (fun _ _ => 0).
Proof.
  destruct (accepted_conv_ok _ _ _ _ _ _ (A t0) HF) as (us & HP). pose proof (co_clays _ _ HP) as X. rewrite <- (clsf_at t0) in X.
  destruct (cls_moves t0 _ _ _ _ _ _ _ _ _ clsf_moves X) as (M1 & M2). rewrite clsf_at in M1.
  constructor; unfold the_net, conv_net; cbn [nF nC nR nL nCls ngroup nls nmix]; auto; try (intros t; destruct (same_conv t) as (E1 & E2 & E3 & E4 & _); congruence).
  - intros t. rewrite M2, clsf_at. destruct (same_conv t) as (E1 & E2 & E3 & E4 & _). rewrite E2, E3, E4. reflexivity.
  - intros y r _ _. eapply ld_eq; [|apply ld_const]. rewrite (rsum_ext _ _ (fun _ => 0)) by (intros; ring). rewrite rsum_zero. ring.
Qed.
Definition cmu (c f l r : nat) : R := match image (P t0) x n c f with Some v => dp c f l v | None => 0 end.
Lemma cleaf_diff c f l r : (c < C)%nat -> (f < H * W)%nat -> (l < cp_L (P t0))%nat -> (r < 1)%nat -> ld t0 (fun t => cq x n (P t) c f l r) (cmu c f l r).
Proof.
  intros Hc Hf Hl Hr. unfold cq, lval, cmu. destruct (build_conv_inv _ _ _ _ _ _ (A t0)) as (c0 & rest & _ & E1 & E2 & E3 & _).
  apply (ld_ext t0 (fun t => match image (P t0) x n c f with Some v => pdf (cp_leaf (P t)) c f l r v | None => 1 end)).
  { intros t. destruct (same_conv t) as (_ & _ & EW & _). unfold image. rewrite EW. reflexivity. }
  destruct (image (P t0) x n c f) as [v|] eqn:Ev; [|apply ld_const]. unfold pdf. apply ld_exp. replace r with 0%nat by lia.
  apply (cv_leaf _ _ _ _ _ _ _ _ _ HC); auto. destruct Hx as (_ & Hs).
  destruct (flat_split f H W Hf) as (h & w & Hh & Hw & ->). unfold image in Ev. rewrite E3 in Ev. rewrite flat_div, flat_mod in Ev by auto. apply (Hs n c h w v); auto; congruence.
Qed.
Lemma cslope_holds st : derivable_pt_lim (fun t => cloglik (P t) (st t) x n) t0 (conv_slope C H W (P t0) x n (cgG (P t0) x n) (cgl (P t0) x n) dl dp).
Proof.
  destruct (build_conv_inv _ _ _ _ _ _ (A t0)) as (c0 & rest & _ & E1 & E2 & E3 & _).
  destruct (accepted_conv_ok _ _ _ _ _ _ (A t0) HF) as (us & HP). pose proof (conv_net_wf _ us HP 1) as Hw. rewrite (net_is (P t0) us HP) in Hw.
  assert (K0: (0 < nCls (the_net (P t0)))%nat) by (cbn; lia).
  apply (dlim_ext t0 (fun t => ln (neteval (the_net (P t)) (cq x n (P t)) 0))); [intros t; symmetry; apply cloglik_at|].
  pose proof (neteval_diff t0 (fun t => the_net (P t)) _ _ _ (fun t => cq x n (P t)) cmu 0%nat Hw cnet_diff K0) as X. cbv beta in X.
  assert (PP: 0 < neteval (the_net (P t0)) (cq x n (P t0)) 0) by (apply neteval_pos; auto; intros; apply lval_pos).
  eapply dlim_eq; [|apply (ld_ln t0 (fun t => neteval (the_net (P t)) (cq x n (P t)) 0) _ PP); apply X].
  2:{ unfold the_net, conv_net. cbn [nF nC nL nR]. rewrite E1, E2, E3. intros c f l r Hc Hf Hl Hr. split; [apply lval_pos|apply cleaf_diff; auto]. }
  clear X. unfold ngrad, conv_slope.
  change (nR (the_net (P t0))) with 1%nat. change (nls (the_net (P t0))) with (cls_us 1 (cp_layers (P t0)) (cp_L (P t0)) (cp_H (P t0)) (cp_W (P t0))).
  change (nF (the_net (P t0))) with (cp_H (P t0) * cp_W (P t0))%nat. change (nC (the_net (P t0))) with (cp_C (P t0)). change (nL (the_net (P t0))) with (cp_L (P t0)).
  rewrite !(rsum_S 0), !rsum_0. rewrite Rmult_0_r, !Rplus_0_l, Rplus_0_r. f_equal.
  - rewrite (cls_dot (cp_layers (P t0)) _ _ _ _ _ _ _ _ _ (co_clays _ _ HP)).
    + rewrite cdots_nth; [|apply cls_G_length|rewrite map_length, seq_length; reflexivity]. apply rsum_ext. intros j Hj. rewrite conv_logits_at. unfold cgG, ccs. apply isum_ext. intros idx _.
      f_equal. rewrite (nth_indep _ zero_at (dl 0%nat)) by (rewrite map_length, seq_length; auto). rewrite map_nth, seq_nth by auto. reflexivity.
    + apply (all_fair_length 1 (npost (the_net (P t0)) (cq x n (P t0)) 0)). apply (cfair (P t0) us HP).
    + rewrite map_length, seq_length. reflexivity.
  - rewrite E1, E2, E3. rewrite rsum_swap. apply rsum_ext. intros c Hc. rewrite rsum_flat. apply rsum_ext. intros h Hh. apply rsum_ext. intros w Hw'.
    unfold cmu, image, cgl. rewrite E3, flat_div, flat_mod by auto. destruct (get x [n; c; h; w]); [reflexivity|]. rewrite (rsum_ext _ _ (fun _ => 0)) by (intros; ring). apply rsum_zero.
Qed.
End Curve.

(** Log-likelihoods of complete and of incomplete images are differentiable in all logits and in the leaf log-probabilities.  One
    gradient gives the derivative along every curve, whatever the caches hold. *)
Theorem C78_gradient : forall V g C H W (o0 : coracle V) P0 N x n, conv_accepted g C H W o0 P0 -> conv_fits g H W -> images P0 N x -> (n < N)%nat ->
  exists G Gl, conv_gradient g C H W P0 G Gl /\
    forall o P t0 dl dp st, conv_curve g C H W o P t0 dl dp -> P t0 = P0 ->
      derivable_pt_lim (fun t => cloglik (P t) (st t) x n) t0 (conv_slope C H W P0 x n G Gl dl dp).
Proof.
  intros V g C H W o0 P0 N x n A HF Hx Hn. destruct (accepted_conv_ok _ _ _ _ _ _ A HF) as (us & HP). exists (cgG P0 x n), (cgl P0 x n). split; [eapply cgradient_holds; eauto|].
  intros o P t0 dl dp st HC <-. eapply cslope_holds; eauto.
Qed.
Print Assumptions C78_gradient.
(** Parameters that move with a speed of at most [delta] (logits) and [eps] (leaf log-probabilities) *)
Definition conv_slower {V} (C H W : nat) (P : convpc V) (delta eps : R) (dl : nat -> list nat -> R) (dp : nat -> nat -> nat -> V -> R) : Prop :=
  (forall j idx, inb (shape (conv_logits P j)) idx -> Rabs (dl j idx) <= delta) /\
  (forall c f l v, (c < C)%nat -> (f < H * W)%nat -> (l < cp_L P)%nat -> lf_supp (cp_leaf P) v = true -> Rabs (dp c f l v) <= eps).
Lemma conv_slope_le {V} g C H W (o0 : coracle V) P0 N x n G Gl dl dp delta eps : conv_accepted g C H W o0 P0 -> images P0 N x -> (n < N)%nat -> conv_gradient g C H W P0 G Gl -> 0 <= delta ->
  conv_slower C H W P0 delta eps dl dp -> Rabs (conv_slope C H W P0 x n G Gl dl dp) <= 2 * delta * INR (conv_positions g H W) + eps * count_pixels C H W x n.
Proof.
  intros A Hx Hn HG Hd (H1 & H2). destruct (build_conv_inv _ _ _ _ _ _ A) as (c0 & rest & _ & E1 & E2 & E3 & _). unfold conv_slope, count_pixels. eapply Rle_trans; [apply Rabs_triang|]. apply Rplus_le_compat.
  - pose proof (cgr_total _ _ _ _ _ _ _ HG) as T.
    apply Rle_trans with (delta * rsum (List.length (cp_layers P0)) (fun j => isum (shape (conv_logits P0 j)) (fun idx => Rabs (G j idx)))); [|nra].
    rewrite <- rsum_scal_l. apply rsum_abs_le. intros j Hj. rewrite <- isum_scal. apply isum_abs_le. intros idx Hi. rewrite Rabs_mult. pose proof (Rabs_pos (G j idx)). specialize (H1 j idx Hi). nra.
  - rewrite <- rsum_scal_l. apply rsum_abs_le. intros c Hc. rewrite <- rsum_scal_l. apply rsum_abs_le. intros h Hh. rewrite <- rsum_scal_l. apply rsum_abs_le. intros w Hw.
    destruct (get x [n; c; h; w]) as [v|] eqn:Ev; [|rewrite Rabs_R0; lra]. rewrite Rmult_1_r.
    assert (Hs: lf_supp (cp_leaf P0) v = true) by (destruct Hx as (_ & Hs); apply (Hs n c h w v); auto; congruence).
    pose proof (flat_lt h w _ _ Hh Hw) as Hf.
    replace eps with (eps * 1) by ring. rewrite <- (cgr_leaf_sum _ _ _ _ _ _ _ HG c _ Hc Hf), <- rsum_scal_l. apply rsum_abs_le. intros l Hl.
    rewrite Rabs_mult. pose proof (cgr_leaf_pos _ _ _ _ _ _ _ HG c _ l Hc Hf Hl). rewrite (Rabs_pos_eq (Gl _ _ _)) by auto. specialize (H2 c _ l v Hc Hf Hl Hs). nra.
Qed.
Theorem C78_speed : forall V g C H W (o : R -> coracle V) P t0 dl dp st N x n delta eps, conv_curve g C H W o P t0 dl dp -> conv_fits g H W -> images (P t0) N x -> (n < N)%nat ->
  0 <= delta -> conv_slower C H W (P t0) delta eps dl dp ->
  exists d, derivable_pt_lim (fun t => cloglik (P t) (st t) x n) t0 d /\ Rabs d <= 2 * delta * INR (conv_positions g H W) + eps * count_pixels C H W x n.
Proof.
  intros V g C H W o P t0 dl dp st N x n delta eps HC HF Hx Hn Hd Hs. pose proof (cv_accepted _ _ _ _ _ _ _ _ _ HC t0) as A.
  destruct (C78_gradient V g C H W (o t0) (P t0) N x n A HF Hx Hn) as (G & Gl & HG & HD). eexists. split; [apply (HD o P t0 dl dp st HC eq_refl)|].
  eapply conv_slope_le; eauto.
Qed.
Print Assumptions C78_speed.
(** One logit moves with speed one; all other parameters stay. *)
Theorem C78_logit : forall V g C H W (o : R -> coracle V) P t0 j0 idx0 st N x n, (j0 < List.length (cp_layers (P t0)))%nat -> inb (shape (conv_logits (P t0) j0)) idx0 ->
  conv_curve g C H W o P t0 (only_logit j0 idx0) (fun _ _ _ _ => 0) -> conv_fits g H W -> images (P t0) N x -> (n < N)%nat ->
  exists d, derivable_pt_lim (fun t => cloglik (P t) (st t) x n) t0 d /\ Rabs d <= 1.
Proof.
  intros V g C H W o P t0 j0 idx0 st N x n Hj Hi HC HF Hx Hn. pose proof (cv_accepted _ _ _ _ _ _ _ _ _ HC t0) as A.
  destruct (C78_gradient V g C H W (o t0) (P t0) N x n A HF Hx Hn) as (G & Gl & HG & HD). exists (G j0 idx0). split; [|apply (cgr_le _ _ _ _ _ _ _ HG); auto].
  eapply dlim_eq; [|apply (HD _ _ _ _ _ st HC eq_refl)]. unfold conv_slope.
  rewrite (rsum_ext _ _ (fun j => (if (j =? j0)%nat then 1 else 0) * G j0 idx0)).
  2:{ intros j _. unfold only_logit. destruct (Nat.eqb_spec j j0) as [->|Hne].
      - rewrite isum_only by auto. ring.
      - rewrite Rmult_0_l. etransitivity; [|apply isum_zero]. apply isum_ext. intros. ring. }
  rewrite (rsum_indicator _ j0 (fun _ => G j0 idx0)) by auto.
  rewrite (rsum_ext C _ (fun _ => 0)); [rewrite rsum_zero; ring|]. intros c _. rewrite (rsum_ext H _ (fun _ => 0)); [apply rsum_zero|]. intros h _. rewrite (rsum_ext W _ (fun _ => 0)); [apply rsum_zero|]. intros w _.
  destruct (get x [n; c; h; w]); auto. rewrite (rsum_ext _ _ (fun _ => 0)); [apply rsum_zero|]. intros; ring.
Qed.
Print Assumptions C78_logit.

(** The training loss: mean and sum of the negative log-likelihoods *)
Theorem C78_loss : forall V g C H W (o : coracle V) P st N x, conv_accepted g C H W o P -> conv_fits g H W -> images P N x ->
  ((0 < N)%nat -> loss_is (snd (conv_nll P st x RMean)) (- mean N (cloglik P st x))) /\
  loss_is (snd (conv_nll P st x RSum)) (- rsum N (cloglik P st x)) /\
  snd (conv_nll P st x ROther) = Err ValueErr.
Proof.
  intros V g C H W o P st N x A HF Hx. destruct (accepted_conv_ok _ _ _ _ _ _ A HF) as (us & HP). destruct (conv_forward_ok P us HP st N x Hx) as (cas & y & E & Sy & _ & G).
  assert (L: forall n, (n < N)%nat -> get y [n] = Fin (cloglik P st x n)) by (intros n Hn; unfold cloglik; rewrite E; cbn [snd]; rewrite G by auto; reflexivity).
  unfold conv_nll, loss_is. rewrite E. cbn [snd bind].
  destruct (total1 (tmap (nmul (Fin (-1))) y) N (fun n => -1 * cloglik P st x n)) as (T & U).
  { exact Sy. } { intros n Hn. cbn [tmap get]. rewrite (L n Hn). reflexivity. }
  rewrite rsum_scal_l in T. split; [|split; [|reflexivity]].
  - intros HN. unfold tmean. rewrite T, U, ndiv_fin by auto. do 2 f_equal. unfold mean, Rdiv. ring.
  - rewrite T. do 2 f_equal. ring.
Qed.
Print Assumptions C78_loss.
(** The training loss is differentiable, with a bound for every batch. *)
Theorem C78_losses : forall V g C H W (o : R -> coracle V) P t0 dl dp st N x delta eps, conv_curve g C H W o P t0 dl dp -> conv_fits g H W -> images (P t0) N x -> (0 < N)%nat ->
  0 <= delta -> 0 <= eps -> conv_slower C H W (P t0) delta eps dl dp ->
  exists D, derivable_pt_lim (fun t => loss_value (snd (conv_nll (P t) (st t) x RMean))) t0 D /\ Rabs D <= 2 * delta * INR (conv_positions g H W) + eps * INR (C * H * W).
Proof.
  intros V g C H W o P t0 dl dp st N x delta eps HC HF Hx HN Hd He Hs. pose proof (fun t => cv_accepted _ _ _ _ _ _ _ _ _ HC t) as A.
  set (d := fun n => conv_slope C H W (P t0) x n (cgG (P t0) x n) (cgl (P t0) x n) dl dp). destruct (accepted_conv_ok _ _ _ _ _ _ (A t0) HF) as (us & HP).
  exists (- mean N d). split.
  - apply (dlim_ext t0 (fun t => - mean N (fun n => cloglik (P t) (st t) x n))).
    + intros t. pose proof (images_at g C H W o P t0 dl dp HC N x Hx t) as Hxt. pose proof (proj1 (C78_loss V g C H W (o t) (P t) (st t) N x (A t) HF Hxt) HN) as L. unfold loss_is in L. rewrite L. reflexivity.
    + apply (derivable_pt_lim_opp (fun t => mean N (fun n => cloglik (P t) (st t) x n))). apply (mean_diff t0 N (fun n t => cloglik (P t) (st t) x n)). intros n Hn. eapply cslope_holds; eauto.
  - rewrite Rabs_Ropp. apply mean_le; auto. intros n Hn. eapply Rle_trans.
    + assert (HG: conv_gradient g C H W (P t0) (cgG (P t0) x n) (cgl (P t0) x n)) by (eapply cgradient_holds; eauto).
      apply (conv_slope_le g C H W (o t0) (P t0) N x n _ _ dl dp delta eps (A t0) Hx Hn HG Hd Hs).
    + assert (CP: count_pixels C H W x n <= INR (C * H * W)).
      { rewrite <- (count_image C H W (fun _ _ _ => 0%nat)). unfold count_pixels. apply rsum_le. intros c _. apply rsum_le. intros h _. apply rsum_le. intros w _. cbn [one_image get]. destruct (get x [n; c; h; w]); lra. }
      nra.
Qed.
Print Assumptions C78_losses.

(** ** Concrete cases *)
(** Images of 3 channels of 4 x 8 pixels, sums at 32 + 8 + 1 positions; two models whose logits differ by 1/8 and whose coins differ. *)
Definition ex_conv_o (p : list nat -> R) (lg : list nat -> num) : coracle nat :=
  mkCO (fun F C L Rn => if (0 <? F) && (0 <? C) && (0 <? L) && (0 <? Rn) then Ok (coin p F C L Rn) else Err ValueErr)%nat (fun i s => mkT s (fun idx => lg (i :: idx))).
Lemma ex_conv_oracle p lg : (forall idx, isfin (lg idx) = true) -> conv_oracle (ex_conv_o p lg).
Proof.
  intros Hlg. split.
  - intros F C L Rn lf E. cbn [ex_conv_o ConvPc.co_leaf] in E. destruct (_ && _) eqn:Eb; [|discriminate]. injection E as <-.
    rewrite !andb_true_iff, !Nat.ltb_lt in Eb. repeat split; try tauto; apply coin_ok.
  - intros i s. split; [reflexivity|]. intros. apply Hlg.
Qed.
Definition ex_conv (p : list nat -> R) (lg : list nat -> num) : convpc nat := unwrap no_conv (build_convpc (ex_conv_o p lg) cex_bottom 3 4 8).
Lemma ex_conv_accepted p lg : (forall idx, isfin (lg idx) = true) -> conv_accepted cex_bottom 3 4 8 (ex_conv_o p lg) (ex_conv p lg).
Proof. intros Hlg. split; [apply ex_conv_oracle; auto|repeat constructor|reflexivity]. Qed.
Definition ex_imgs : tensor (option nat) := mkT [5; 3; 4; 8]%nat (fun idx => if (nth 1 idx 0 =? 1)%nat then None else Some (nth 2 idx 0 mod 2)%nat).
Lemma ex_imgs_ok p lg : images (ex_conv p lg) 5 ex_imgs.
Proof.
  split; [reflexivity|]. intros n c h w v _ _ _ _. cbn [ex_imgs get nth]. destruct (c =? 1)%nat; [discriminate|]. intros [= <-].
  change (lf_supp (cp_leaf (ex_conv p lg)) (h mod 2)) with (h mod 2 <? 2)%nat. apply Nat.ltb_lt. apply Nat.mod_upper_bound. lia.
Qed.
Example C77_ex : exists P P', conv_accepted cex_bottom 3 4 8 (ex_conv_o third grow) P /\ conv_accepted cex_bottom 3 4 8 (ex_conv_o two_fifths nudged) P' /\ conv_fits cex_bottom 4 8 /\
  conv_within (1 / 8) (ex_conv_o third grow) (ex_conv_o two_fifths nudged) /\ leaves_within (1 / 5) (cp_leaf P) (cp_leaf P') /\ images P 5 ex_imgs /\ conv_positions cex_bottom 4 8 = 41%nat /\
  forall st, exists y y', snd (conv_forward P st ex_imgs) = Ok y /\ snd (conv_forward P' st ex_imgs) = Ok y' /\
    Rabs (toR (get y [3]%nat) - toR (get y' [3]%nat)) <= 1 / 4 * INR 41 + 1 / 5 * count_pixels 3 4 8 ex_imgs 3.
Proof.
  exists (ex_conv third grow), (ex_conv two_fifths nudged).
  assert (A1: conv_accepted cex_bottom 3 4 8 (ex_conv_o third grow) (ex_conv third grow)) by (apply ex_conv_accepted; intros; reflexivity).
  assert (A2: conv_accepted cex_bottom 3 4 8 (ex_conv_o two_fifths nudged) (ex_conv two_fifths nudged)) by (apply ex_conv_accepted; apply nudged_fin).
  assert (W1: conv_within (1 / 8) (ex_conv_o third grow) (ex_conv_o two_fifths nudged)) by (intros i s idx _; apply nudged_within).
  assert (W2: leaves_within (1 / 5) (cp_leaf (ex_conv third grow)) (cp_leaf (ex_conv two_fifths nudged))).
  { split; [reflexivity|]. intros c f l r v _ _ _ _ _. cbn [ex_conv build_convpc unwrap cex_bottom cc_channels ex_conv_o ConvPc.co_leaf].
    change (lf_logp (cp_leaf (ex_conv third grow)) [c; f; l; r] v) with (Fin (ln (if (v =? 0)%nat then third [c; f; l; r] else 1 - third [c; f; l; r]))).
    change (lf_logp (cp_leaf (ex_conv two_fifths nudged)) [c; f; l; r] v) with (Fin (ln (if (v =? 0)%nat then two_fifths [c; f; l; r] else 1 - two_fifths [c; f; l; r]))).
    cbn [toR]. unfold third, two_fifths. destruct (v =? 0)%nat; apply ln_ratio; lra. }
  pose proof (ex_imgs_ok third grow) as HI. do 6 (split; [first [assumption|exact dex_fits]|]). split; [reflexivity|]. intros st.
  destruct (C77_loglikelihood nat _ _ _ _ _ _ _ _ (1 / 8) (1 / 5) st st 5 ex_imgs A1 A2 dex_fits W1 W2 HI) as (y & y' & Ey & Ey' & B). exists y, y'. split; auto. split; auto.
  destruct (B 3%nat ltac:(lia)) as (_ & _ & X). change (conv_positions cex_bottom 4 8) with 41%nat in X. lra.
Qed.
(** One logit of the first layer moves. *)
Definition cidx : list nat := [1; 0; 2; 3]%nat.
Definition moving (t : R) (idx : list nat) : num := Fin (INR (list_sum idx) + t * (if list_eq_dec Nat.eq_dec idx (0%nat :: cidx) then 1 else 0)).
Lemma moving_curve : conv_curve cex_bottom 3 4 8 (fun t => ex_conv_o third (moving t)) (fun t => ex_conv third (moving t)) 0 (only_logit 0 cidx) (fun _ _ _ _ => 0).
Proof.
  assert (LIN: forall a w, derivable_pt_lim (fun t => a + t * w) 0 w).
  { intros a w. apply (dlim_eq 0 _ (0 + (1 * w + 0 * 0))); [ring|]. apply (derivable_pt_lim_plus (fun _ => a) (fun t => t * w)); [apply derivable_pt_lim_const|].
    apply (derivable_pt_lim_mult (fun t => t) (fun _ => w)); [apply derivable_pt_lim_id|apply derivable_pt_lim_const]. }
  split.
  - intros t. apply ex_conv_accepted. reflexivity.
  - intros j idx Hi. destruct j as [|[|[|j]]].
    + change (fun t => toR (get (conv_logits (ex_conv third (moving t)) 0) idx)) with (fun t => INR (list_sum (0%nat :: idx)) + t * (if list_eq_dec Nat.eq_dec (0%nat :: idx) (0%nat :: cidx) then 1 else 0)).
      eapply dlim_eq; [|apply LIN]. unfold only_logit. cbn [Nat.eqb]. destruct (list_eq_dec Nat.eq_dec (0%nat :: idx) (0%nat :: cidx)); destruct (list_eq_dec Nat.eq_dec idx cidx); congruence.
    + change (fun t => toR (get (conv_logits (ex_conv third (moving t)) 1) idx)) with (fun t => INR (list_sum (1%nat :: idx)) + t * (if list_eq_dec Nat.eq_dec (1%nat :: idx) (0%nat :: cidx) then 1 else 0)).
      eapply dlim_eq; [|apply LIN]. unfold only_logit. cbn [Nat.eqb]. destruct (list_eq_dec Nat.eq_dec (1%nat :: idx) (0%nat :: cidx)); congruence.
    + change (fun t => toR (get (conv_logits (ex_conv third (moving t)) 2) idx)) with (fun t => INR (list_sum (2%nat :: idx)) + t * (if list_eq_dec Nat.eq_dec (2%nat :: idx) (0%nat :: cidx) then 1 else 0)).
      eapply dlim_eq; [|apply LIN]. unfold only_logit. cbn [Nat.eqb]. destruct (list_eq_dec Nat.eq_dec (2%nat :: idx) (0%nat :: cidx)); congruence.
    + exfalso. change (conv_logits (ex_conv third (moving 0)) (S (S (S j)))) with (match nth_error (@nil clayer) j with Some (CSum s) | Some (CSumProd _ s _ _) => cs_logits s | _ => no_logits end) in Hi.
      destruct j; cbn in Hi; destruct idx as [|? [|]]; cbn in Hi; try tauto; lia.
  - reflexivity.
  - intros c f l v _ _ _ _. apply (derivable_pt_lim_const (ln (if (v =? 0)%nat then third [c; f; l; 0]%nat else 1 - third [c; f; l; 0]%nat))).
Qed.
Example C78_ex : exists d, derivable_pt_lim (fun t => cloglik (ex_conv third (moving t)) (fresh_state (ex_conv third (moving t))) ex_imgs 3) 0 d /\ Rabs d <= 1.
Proof.
  apply (C78_logit nat cex_bottom 3 4 8 (fun t => ex_conv_o third (moving t)) (fun t => ex_conv third (moving t)) 0 0 cidx (fun t => fresh_state (ex_conv third (moving t))) 5 ex_imgs 3).
  - change (0 < 3)%nat. lia.
  - change (shape (conv_logits (ex_conv third (moving 0)) 0)) with [3; 2; 4; 8]%nat. cbn. lia.
  - exact moving_curve.
  - exact dex_fits.
  - apply ex_imgs_ok.
  - lia.
Qed.
Example C78_loss_ex : exists D, derivable_pt_lim (fun t => loss_value (snd (conv_nll (ex_conv third (moving t)) (fresh_state (ex_conv third (moving t))) ex_imgs RMean))) 0 D /\ Rabs D <= 2 * INR 41.
Proof.
  destruct (C78_losses nat cex_bottom 3 4 8 (fun t => ex_conv_o third (moving t)) (fun t => ex_conv third (moving t)) 0 (only_logit 0 cidx) (fun _ _ _ _ => 0) (fun t => fresh_state (ex_conv third (moving t))) 5 ex_imgs 1 0) as (D & HD & HB).
  - exact moving_curve.
  - exact dex_fits.
  - apply ex_imgs_ok.
  - lia.
  - lra.
  - lra.
  - split; [intros j idx _; unfold only_logit; destruct (_ =? _)%nat; [destruct (list_eq_dec _ _ _)|]; rewrite ?Rabs_R0, ?Rabs_R1; lra|intros; rewrite Rabs_R0; lra].
  - exists D. split; [exact HD|]. change (conv_positions cex_bottom 4 8) with 41%nat in HB. lra.
Qed.
