(** C40, C41, C51: convolutional circuits. *)
From Coq Require Import List Arith Lia Bool Reals Lra.
Import ListNotations.
From Verif Require Import Base RSum Num Tensor Prob Layers Circuit Net RefFwd RefSample RefLaw Leaf RefLeaf Einet RefEinetS Diff Spec RefSpec Ex ExBad ConvPc RefConv RefConvNet RefConvS.
Local Open Scope R_scope.
Local Arguments Nat.div : simpl never. Local Arguments Nat.modulo : simpl never. Local Arguments Nat.sub : simpl never.
Local Arguments Nat.mul : simpl never. Local Arguments Nat.add : simpl never.

(** * C40 *)
(** With sizes that fit, one finite log-likelihood per image. *)
Theorem C40_forward : forall V g C H W (o : coracle V) P st N x,
  conv_accepted g C H W o P -> conv_fits g H W -> images P N x ->
  exists y, snd (conv_forward P st x) = Ok y /\ shape y = [N] /\ forall n, (n < N)%nat -> exists r, get y [n] = Fin r.
Proof.
  intros V g C H W o P st N x HA HF Hx. destruct (accepted_conv_ok _ _ _ _ _ _ HA HF) as (us & HP).
  destruct (conv_forward_ok P us HP st N x Hx) as (cas & y & -> & Sy & _ & Gy). exists y. split; auto. split; auto. intros n Hn. eauto.
Qed.
(** The sizes that fit are exactly those for which the forward pass returns. *)
Theorem C40_sizes : forall V g C H W (o : coracle V) P st N x,
  conv_accepted g C H W o P -> images P N x ->
  (exists y, snd (conv_forward P st x) = Ok y) <-> conv_fits g H W.
Proof.
  intros V g C H W o P st N x HA Hx. split.
  - intros (y & E). eapply conv_forward_sizes; eauto.
  - intros HF. destruct (C40_forward _ _ _ _ _ _ _ st _ _ HA HF Hx) as (y & E & _). eauto.
Qed.
Theorem C40_sum_to_one : forall g C H W o P B st,
  conv_accepted g C H W o P -> conv_fits g H W -> discrete_leaf B (cp_leaf P) ->
  lsum (fun v => clik P st (one_image C H W (pixels H W v)) 0) (vectors B (C * H * W)) = 1.
Proof.
  intros g C H W o P B st HA HF HB. destruct (accepted_conv_ok _ _ _ _ _ _ HA HF) as (us & HP).
  destruct (build_conv_inv _ _ _ _ _ _ HA) as (c0 & rest & _ & <- & <- & <- & _). eapply clik_sum; eauto.
Qed.
(** A missing pixel is summed out. *)
Theorem C40_missing : forall g C H W o P B st N x n,
  conv_accepted g C H W o P -> conv_fits g H W -> discrete_leaf B (cp_leaf P) -> images P N x -> (n < N)%nat ->
  clik P st x n = lsum (fun v => clik P st (one_image C H W (pixels H W v)) 0)
    (filter (fills C H W (fun c h w => get x [n; c; h; w])) (vectors B (C * H * W))).
Proof.
  intros g C H W o P B st N x n HA HF HB Hx Hn. destruct (accepted_conv_ok _ _ _ _ _ _ HA HF) as (us & HP).
  destruct (build_conv_inv _ _ _ _ _ _ HA) as (c0 & rest & _ & <- & <- & <- & _). eapply clik_fills; eauto.
Qed.
(** Rows are evaluated independently of each other and of the caches. *)
Theorem C40_rows : forall V g C H W (o : coracle V) P st st' N x N' x' n n',
  conv_accepted g C H W o P -> conv_fits g H W -> images P N x -> images P N' x' -> (n < N)%nat -> (n' < N')%nat ->
  (forall c h w, (c < C)%nat -> (h < H)%nat -> (w < W)%nat -> get x [n; c; h; w] = get x' [n'; c; h; w]) ->
  clik P st x n = clik P st' x' n'.
Proof.
  intros V g C H W o P st st' N x N' x' n n' HA HF Hx Hx' Hn Hn' E. destruct (accepted_conv_ok _ _ _ _ _ _ HA HF) as (us & HP).
  destruct (build_conv_inv _ _ _ _ _ _ HA) as (c0 & rest & _ & EC & EH & EW & _ & _ & PH & PW & _).
  rewrite (clik_eval' P us HP st N) by auto. rewrite (clik_eval' P us HP st' N') by auto. apply neteval_ext; [apply conv_net_wf; exact HP|cbn; lia|].
  intros c f l r Hc Hf _ _. unfold lval, image. cbn [conv_net nC nF] in Hc, Hf. destruct (flat_split f _ _ Hf) as (h & w & Hh & Hw & ->).
  rewrite flat_div, flat_mod by auto. rewrite E; auto; congruence.
Qed.
(** Refuted: with a single leaf component per pixel the forward pass always raises. *)
Theorem C40_single_refuted : forall V g C H W (o : coracle V) P st N x,
  conv_accepted g C H W o P -> hd 0%nat (cc_channels g) = 1%nat -> images P N x -> snd (conv_forward P st x) = Err RuntimeErr.
Proof.
  intros V g C H W o P st N x HA H1 Hx. destruct (build_conv_inv _ _ _ _ _ _ HA) as (c0 & rest & EC & _ & _ & _ & EL & _). rewrite EC in H1. cbn [hd] in H1.
  destruct (leaf_images_gen P (accepted_conv_leaf _ _ _ _ _ _ HA) N x Hx) as (y & E & _). rewrite EL, H1 in E. cbn [Nat.eqb] in E.
  unfold conv_forward. rewrite E. reflexivity.
Qed.

(** A small family of models: coins as leaves, all logits zero. *)
Definition cex_oracle (p : list nat -> R) : coracle nat :=
  mkCO (fun F C L Rn => if (0 <? F) && (0 <? C) && (0 <? L) && (0 <? Rn) then Ok (coin p F C L Rn) else Err ValueErr)%nat
       (fun _ s => full s (Fin 0)).
Lemma cex_oracle_ok p : conv_oracle (cex_oracle p).
Proof.
  split.
  - intros F C L Rn lf E. cbn [cex_oracle co_leaf] in E. destruct (_ && _) eqn:Eb; [|discriminate]. injection E as <-.
    rewrite !andb_true_iff, !Nat.ltb_lt in Eb. repeat split; try tauto; apply coin_ok.
  - intros i s. split; [reflexivity|]. intros. reflexivity.
Qed.
Definition half : list nat -> R := fun _ => 1 / 2.
Definition skew : list nat -> R := fun key => if (nth 2 key 0 =? 0)%nat then 9 / 10 else 1 / 10.
Lemma half_ok key : 0 < half key < 1. Proof. unfold half. lra. Qed.
Lemma skew_ok key : 0 < skew key < 1. Proof. unfold skew. destruct (_ =? _)%nat; lra. Qed.
Definition unwrap {A} (d : A) (r : res A) : A := match r with Ok a => a | Err _ => d end.
Definition no_conv : convpc nat := mkCP 0 0 0 0 (coin half 0 0 0 0) [].

Definition cex_bottom : cconfig := mkCC [2; 3; 2]%nat 2 CBottomUp OSumProd.
Definition cex_top : cconfig := mkCC [2; 3]%nat 2 CTopDown OProdSum.
Definition cex_P1 : convpc nat := unwrap no_conv (build_convpc (cex_oracle skew) cex_bottom 3 4 8).
Definition cex_P2 : convpc nat := unwrap no_conv (build_convpc (cex_oracle skew) cex_top 1 4 8).
Example C40_ex1 : conv_accepted cex_bottom 3 4 8 (cex_oracle skew) cex_P1 /\ conv_fits cex_bottom 4 8 /\ discrete_leaf 2 (cp_leaf cex_P1) /\
  images cex_P1 5 (mkT [5; 3; 4; 8]%nat (fun idx => if (nth 1 idx 0 =? 1)%nat then None else Some (nth 2 idx 0 mod 2)%nat)).
Proof.
  split; [|split; [|split]].
  - split; [apply cex_oracle_ok|repeat constructor|reflexivity].
  - split; [cbn; lia|]. cbn. split; [right; discriminate|]. split; [exists 1%nat|exists 2%nat]; reflexivity.
  - apply (coin_discrete skew 32 3 2 1 skew_ok).
  - split; [reflexivity|]. intros n c h w v _ _ _ _. cbn [get nth]. destruct (c =? 1)%nat; [discriminate|]. intros [= <-].
    change (lf_supp (cp_leaf cex_P1) (h mod 2)) with (h mod 2 <? 2)%nat. apply Nat.ltb_lt. apply Nat.mod_upper_bound. lia.
Qed.
Example C40_ex2 : conv_accepted cex_top 1 4 8 (cex_oracle skew) cex_P2 /\ conv_fits cex_top 4 8 /\ discrete_leaf 2 (cp_leaf cex_P2).
Proof.
  split; [|split].
  - split; [apply cex_oracle_ok|repeat constructor|reflexivity].
  - split; [cbn; lia|]. cbn. split; [discriminate|]. split; [exists 1%nat|exists 2%nat]; reflexivity.
  - apply (coin_discrete skew 32 1 2 1 skew_ok).
Qed.
(** Refuted: the constructor accepts sizes that do not fit, for instance three top-down levels on 28 x 28 pixels;
    every forward pass of such a model raises. *)
Theorem C40_misfit_refuted : exists g C H W (o : coracle nat) P, conv_accepted g C H W o P /\ cc_order g = OSumProd /\
  forall st N x, images P N x -> exists e, snd (conv_forward P st x) = Err e.
Proof.
  set (g := mkCC [2; 2; 2]%nat 2 CTopDown OSumProd). set (P := unwrap no_conv (build_convpc (cex_oracle skew) g 1 28 28)).
  exists g, 1%nat, 28%nat, 28%nat, (cex_oracle skew), P.
  assert (HA: conv_accepted g 1 28 28 (cex_oracle skew) P) by (split; [apply cex_oracle_ok|repeat constructor|reflexivity]).
  split; auto. split; [reflexivity|]. intros st N x Hx. destruct (snd (conv_forward P st x)) as [y|e] eqn:E; [exfalso|eauto].
  pose proof (proj1 (C40_sizes _ _ _ _ _ _ _ st _ _ HA Hx) (ex_intro _ y E)) as (_ & _ & [q Hq] & _). cbn [cc_channels g length] in Hq. change (2 ^ 3)%nat with 8%nat in Hq. lia.
Qed.
(** Refuted: the constructor does not validate the configuration; an unknown order only fails later. *)
Theorem C40_order_refuted : exists g C H W (o : coracle nat) P, conv_accepted g C H W o P /\ cc_order g = OOther /\
  forall st N x, images P N x -> exists e, snd (conv_forward P st x) = Err e.
Proof.
  set (g := mkCC [2; 2]%nat 2 CBottomUp OOther). set (P := unwrap no_conv (build_convpc (cex_oracle skew) g 1 4 4)).
  exists g, 1%nat, 4%nat, 4%nat, (cex_oracle skew), P.
  assert (HA: conv_accepted g 1 4 4 (cex_oracle skew) P) by (split; [apply cex_oracle_ok|repeat constructor|reflexivity]).
  split; auto. split; [reflexivity|]. intros st N x Hx. destruct (snd (conv_forward P st x)) as [y|e] eqn:E; [exfalso|eauto].
  pose proof (proj1 (C40_sizes _ _ _ _ _ _ _ st _ _ HA Hx) (ex_intro _ y E)) as (_ & [X|X] & _); [discriminate|apply X; reflexivity].
Qed.

(** * C51 *)
(** Free samples are images whose pixels come from the leaves at their position. *)
Theorem C51_images : forall V g C H W (o : coracle V) P val st a N supp r,
  conv_accepted g C H W o P -> conv_fits g H W -> st_on st = false -> lf_ctx (cp_leaf P) = true ->
  ca_num a = Some N -> ca_ev a = None -> ca_params a = false -> ca_tsum a <> 0 ->
  (ca_mpe a || ca_mpel a = true -> lf_mode (cp_leaf P) <> None) ->
  outcome supp (snd (conv_sample P val st a)) r ->
  exists t, r = Ok t /\ shape t = [N; C; H; W] /\
  forall n c h w, (n < N)%nat -> (c < C)%nat -> (h < H)%nat -> (w < W)%nat ->
    exists l v, (l < hd 0 (cc_channels g))%nat /\ get t [n; c; h; w] = Fin (val v) /\
      if ca_mpe a || ca_mpel a then exists md, lf_mode (cp_leaf P) = Some md /\ v = md [c; h * W + w; l; 0]%nat else supp [c; h * W + w; l; 0]%nat v.
Proof.
  intros V g C H W o P val st a N supp r HA HF Hst Hctx Hn He Hp HT Hm Ho. destruct (accepted_conv_ok _ _ _ _ _ _ HA HF) as (us & HP).
  destruct (build_conv_inv _ _ _ _ _ _ HA) as (c0 & rest & EC & <- & <- & <- & EL & _). rewrite EC. cbn [hd]. rewrite <- EL.
  exact (conv_sample_image P us val st a N HP Hst Hctx Hn He Hp HT Hm supp r Ho).
Qed.
(** Independent samples from the distribution of the forward pass. *)
Theorem C51_law : forall g C H W o P B st N xs,
  conv_accepted g C H W o P -> conv_fits g H W -> discrete_leaf B (cp_leaf P) -> lf_ctx (cp_leaf P) = true -> st_on st = false ->
  (forall n c h w, (n < N)%nat -> (c < C)%nat -> (h < H)%nat -> (w < W)%nat -> (xs n c h w < B)%nat) ->
  Pr B (cp_leaf P) (snd (conv_sample P INR st (free N 1))) (images_are N C H W xs) =
  rprod N (fun n => clik P st (one_image C H W (xs n)) 0).
Proof.
  intros g C H W o P B st N xs HA HF HB Hctx Hst. destruct (accepted_conv_ok _ _ _ _ _ _ HA HF) as (us & HP).
  destruct (build_conv_inv _ _ _ _ _ _ HA) as (c0 & rest & _ & <- & <- & <- & _). apply (conv_sample_prob P us HP B HB Hctx); auto.
Qed.
(** temperature_sums = T: samples of the model whose logits are divided by T. *)
Theorem C51_temperature : forall g C H W o P B st st' N T xs,
  conv_accepted g C H W o P -> conv_fits g H W -> discrete_leaf B (cp_leaf P) -> lf_ctx (cp_leaf P) = true -> st_on st = false -> T <> 0 ->
  (forall n c h w, (n < N)%nat -> (c < C)%nat -> (h < H)%nat -> (w < W)%nat -> (xs n c h w < B)%nat) ->
  Pr B (cp_leaf P) (snd (conv_sample P INR st (free N T))) (images_are N C H W xs) =
  rprod N (fun n => clik (cool T P) st' (one_image C H W (xs n)) 0).
Proof.
  intros g C H W o P B st st' N T xs HA HF HB Hctx Hst HT. destruct (accepted_conv_ok _ _ _ _ _ _ HA HF) as (us & HP).
  destruct (build_conv_inv _ _ _ _ _ _ HA) as (c0 & rest & _ & <- & <- & <- & _). intros. eapply conv_sample_tempered; eauto.
Qed.
(** Free samples leave the caches as they were. *)
Theorem C51_state : forall V (P : convpc V) val st a, ca_ev a = None -> fst (conv_sample P val st a) = st.
Proof. intros V P val st a He. unfold conv_sample. rewrite He. destruct (ca_num a); reflexivity. Qed.
(** Refuted: return_leaf_params=True always raises. *)
Theorem C51_params_refuted : forall V g C H W (o : coracle V) P val st a N supp r,
  conv_accepted g C H W o P -> conv_fits g H W -> st_on st = false -> lf_ctx (cp_leaf P) = true ->
  ca_num a = Some N -> ca_ev a = None -> ca_params a = true -> ca_tsum a <> 0 ->
  outcome supp (snd (conv_sample P val st a)) r -> r = Err ValueErr.
Proof.
  intros V g C H W o P val st a N supp r HA HF Hst Hctx Hn He Hp HT Ho. destruct (accepted_conv_ok _ _ _ _ _ _ HA HF) as (us & HP).
  unfold conv_sample in Ho. rewrite Hn, He in Ho. cbn [snd] in Ho. unfold conv_free, live in Ho. rewrite Hst, Hctx, Hp in Ho. cbn [guard negb lift mbind] in Ho.
  apply outcome_bind in Ho as [(e & Ho & ->)|(p & _ & Ho)].
  - destruct (clays_hot _ _ _ _ _ _ _ _ _ N (ca_mpe a) _ _ (co_clays _ _ HP) HT (root_hot P N) _ _ Ho) as (t & j & E & _). discriminate.
  - inversion Ho. reflexivity.
Qed.
Example C51_ex : conv_accepted cex_bottom 3 4 8 (cex_oracle skew) cex_P1 /\ conv_fits cex_bottom 4 8 /\ discrete_leaf 2 (cp_leaf cex_P1) /\
  lf_ctx (cp_leaf cex_P1) = true /\ st_on (fresh_state cex_P1) = false /\ lf_mode (cp_leaf cex_P1) <> None /\
  forall n c h w : nat, (n < 5)%nat -> (c < 3)%nat -> (h < 4)%nat -> (w < 8)%nat -> ((fun n c h w : nat => (n + w) mod 2) n c h w < 2)%nat.
Proof.
  destruct C40_ex1 as (A & B & D & _). split; auto. split; auto. split; auto. split; [reflexivity|]. split; [reflexivity|]. split; [discriminate|].
  intros. apply Nat.mod_upper_bound. lia.
Qed.

(** * C41 *)
(** Refuted: every call with evidence raises, whatever the model and its state, and leaves the caches enabled. *)
Theorem C41_refuted : forall V (P : convpc V) val st a e, ca_ev a = Some e ->
  (forall supp r, outcome supp (snd (conv_sample P val st a)) r -> r = Err AttributeErr) /\ st_on (fst (conv_sample P val st a)) = true.
Proof.
  intros V P val st a e He. unfold conv_sample. rewrite He. split; [|destruct (ca_num a); reflexivity].
  intros supp r Ho. destruct (ca_num a); inversion Ho; reflexivity.
Qed.
(** Nothing a user can call disables them again. *)
Inductive ccall (V : Type) : Type := CallForward (x : tensor (option V)) | CallSample (a : cargs (V := V)).
Arguments CallForward {V}. Arguments CallSample {V}.
Definition after {V} (P : convpc V) (val : V -> R) (st : cstate) (cs : list (ccall V)) : cstate :=
  fold_left (fun st c => match c with CallForward x => fst (conv_forward P st x) | CallSample a => fst (conv_sample P val st a) end) cs st.
Theorem C41_stuck : forall V (P : convpc V) val st a e cs, ca_ev a = Some e ->
  st_on (after P val st (CallSample a :: cs)) = true.
Proof.
  intros V P val st a e cs He. unfold after. cbn [fold_left]. assert (H0: st_on (fst (conv_sample P val st a)) = true) by (eapply C41_refuted; eauto).
  revert H0. generalize (fst (conv_sample P val st a)). induction cs as [|c cs IH]; intros s Hs; [exact Hs|]. cbn [fold_left]. apply IH. destruct c as [x|b].
  - unfold conv_forward. destruct (leaf_images P x); [|exact Hs]. destruct (clayers_forward _ _). cbn [fst]. unfold store. rewrite Hs. reflexivity.
  - unfold conv_sample. destruct (ca_num b), (ca_ev b); cbn [fst]; auto.
Qed.
(** Likelihoods are not affected. *)
Theorem C41_forward : forall V (P : convpc V) st st' x, snd (conv_forward P st x) = snd (conv_forward P st' x).
Proof. intros. unfold conv_forward. destruct (leaf_images P x); [|reflexivity]. destruct (clayers_forward _ _). reflexivity. Qed.

(** Refuted: free samples are.  One pixel, two components: after a failed call with evidence and a likelihood of the
    pixel 0, a free sample is 0 with probability 0.82; it was 0.5. *)
Definition cex_one : cconfig := mkCC [2]%nat 1 CBottomUp OSumProd.
Definition cex_P3 : convpc nat := unwrap no_conv (build_convpc (cex_oracle skew) cex_one 1 1 1).
Definition cex_sum : csum := mkCS 2 1 1 1 (full [1; 2; 1; 1]%nat (Fin 0)).
Definition cex_us (T : R) : list ulayer := [prod_u 2 1 1 1 1; csum_u cex_sum T] ++ [].
Lemma cex_P3_accepted : conv_accepted cex_one 1 1 1 (cex_oracle skew) cex_P3.
Proof. split; [apply cex_oracle_ok|repeat constructor|reflexivity]. Qed.
Lemma cex_P3_ok : conv_ok cex_P3 cex_us.
Proof.
  split; [eapply accepted_conv_leaf; apply cex_P3_accepted|exact (le_n 2)|].
  change (cp_layers cex_P3) with [CSumProd OProdSum cex_sum 1 1]. change (cp_L cex_P3) with 2%nat. change (cp_H cex_P3) with 1%nat. change (cp_W cex_P3) with 1%nat.
  unfold cex_us. eapply clays_cons; [|constructor]. apply (clay_ps cex_sum 1 1 2 1 1 1 1); [unfold tiles; lia|].
  unfold csum_ok. cbn. repeat split; auto.
Qed.
Lemma cex_eval v : evals (cex_us 1) v 0%nat 0%nat 0%nat = 1 / 2 * v 0%nat 0%nat 0%nat + 1 / 2 * v 0%nat 1%nat 0%nat.
Proof.
  unfold cex_us. change (evals ([prod_u 2 1 1 1 1; csum_u cex_sum 1] ++ []) v) with (ueval (csum_u cex_sum 1) (ueval (prod_u 2 1 1 1 1) v)).
  unfold ueval. cbn [csum_u uK cs_in cex_sum]. rewrite !rsum_S, rsum_0. unfold uprod. cbn [csum_u ukids usel lprod uW prod_u uK].
  unfold csum_w, wsoft, rsoftmax. cbn [cs_in cex_sum cs_logits full get toR]. rewrite !rsum_S, !rsum_0. cbn.
  change ((0 / (1 / 1) * 1 + 0) * 1 + (0 mod (1 / 1) * 1 + 0))%nat with 0%nat. replace (0 / 1) with 0 by field. rewrite exp_0. field.
Qed.
Definition zero_image : nat -> nat -> nat -> nat -> nat := fun _ _ _ _ => 0%nat.
Definition cex_x : tensor (option nat) := one_image 1 1 1 (zero_image 0).
Theorem C41_contaminated_refuted : exists g C H W o P a e x,
  conv_accepted g C H W o P /\ conv_fits g H W /\ discrete_leaf 2 (cp_leaf P) /\ lf_ctx (cp_leaf P) = true /\ ca_ev a = Some e /\ images P 1 e /\ images P 1 x /\
  let before := fresh_state P in
  let now := after P INR before [CallSample a; CallForward x] in
  Pr 2 (cp_leaf P) (snd (conv_sample P INR before (free 1 1))) (images_are 1 C H W zero_image) = 5 / 10 /\
  Pr 2 (cp_leaf P) (snd (conv_sample P INR now (free 1 1))) (images_are 1 C H W zero_image) = 82 / 100.
Proof.
  exists cex_one, 1%nat, 1%nat, 1%nat, (cex_oracle skew), cex_P3, (mkCA None (Some cex_x) false false false 1), cex_x, cex_x.
  pose proof (coin_discrete skew 1 1 2 1 skew_ok) as HD.
  assert (HI: images cex_P3 1 cex_x).
  { apply (one_image_images cex_P3 2 HD). intros. unfold zero_image. lia. }
  split; [apply cex_P3_accepted|]. split.
  { split; [exact (le_n 2)|]. split; [left; reflexivity|]. split; exists 1%nat; reflexivity. }
  split; [exact HD|]. split; [reflexivity|]. split; [reflexivity|]. split; [exact HI|]. split; [exact HI|].
  assert (PD: forall l, pdf (cp_leaf cex_P3) 0 0 l 0 0%nat = skew [0; 0; l; 0]%nat) by (intros; apply (coin_pdf skew 1 1 2 1); apply skew_ok).
  assert (LV: forall q l, leafval (conv_net cex_P3 cex_us 1) q 0%nat l 0%nat = q 0%nat 0%nat l 0%nat).
  { intros q l. rewrite conv_leafval by exact (le_n 1). change (cp_C cex_P3) with 1%nat. rewrite rprod_S, rprod_0. ring. }
  cbv zeta. split.
  - rewrite (C51_law _ _ _ _ _ _ 2 _ _ _ cex_P3_accepted).
    + rewrite rprod_S, rprod_0. change (one_image 1 1 1 (zero_image 0)) with cex_x. rewrite (clik_eval cex_P3 cex_us cex_P3_ok _ 1 cex_x 0 HI) by lia.
      rewrite conv_neteval, cex_eval, !LV. unfold lval. cbn [image cex_x one_image get]. unfold zero_image. rewrite !PD. unfold skew. cbn [nth Nat.eqb]. field.
    + split; [exact (le_n 2)|]. split; [left; reflexivity|]. split; exists 1%nat; reflexivity.
    + exact HD.
    + reflexivity.
    + reflexivity.
    + intros. unfold zero_image. lia.
  - unfold after. cbn [fold_left conv_sample ca_num ca_ev fst].
    pose proof (stuck_law cex_P3 cex_us cex_P3_ok 2 HD eq_refl 1 cex_x zero_image HI) as X. change (cp_C cex_P3) with 1%nat in X. change (cp_H cex_P3) with 1%nat in X. change (cp_W cex_P3) with 1%nat in X.
    rewrite X by (intros; unfold zero_image; lia). rewrite rprod_S, rprod_0, conv_neteval, !cex_eval. unfold vmul. rewrite !LV.
    unfold lval. cbn [image cex_x one_image get]. unfold zero_image. rewrite !PD. unfold skew. cbn [nth Nat.eqb]. field.
Qed.

Print Assumptions C40_forward.
Print Assumptions C40_sizes.
Print Assumptions C40_sum_to_one.
Print Assumptions C40_missing.
Print Assumptions C40_rows.
Print Assumptions C40_single_refuted.
Print Assumptions C40_misfit_refuted.
Print Assumptions C40_order_refuted.
Print Assumptions C51_images.
Print Assumptions C51_law.
Print Assumptions C51_temperature.
Print Assumptions C51_state.
Print Assumptions C51_params_refuted.
Print Assumptions C41_refuted.
Print Assumptions C41_stuck.
Print Assumptions C41_forward.
Print Assumptions C41_contaminated_refuted.
