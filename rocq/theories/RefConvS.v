(** Convolutional circuits with discrete leaves: probabilities of images and of samples; caches. *)
From Coq Require Import List Arith Lia Bool Reals Lra FunctionalExtensionality.
Import ListNotations.
From Verif Require Import Base RSum Num Tensor Prob Layers Circuit Net RefFwd RefSample RefLaw Leaf RefLeaf RefLeafS Einet RefEinetS Diff RefDiff Spec RefSpec RefSpecS RefMulti RefMv ConvPc RefConv RefConvNet.
Local Open Scope R_scope.
Local Arguments Nat.div : simpl never.
Local Arguments Nat.modulo : simpl never.
Local Arguments Nat.sub : simpl never.
Local Arguments Nat.mul : simpl never.
Local Arguments Nat.add : simpl never.

(** * Vocabulary *)
(** exp(model(x)[n]); zero if the call fails or the entry is not finite. *)
Definition clik {V} (P : convpc V) (st : cstate) (x : tensor (option V)) (n : nat) : R :=
  match snd (conv_forward P st x) with Ok y => pval (get y [n]) | Err _ => 0 end.
(** An image as a batch with one row. *)
Definition one_image (C H W : nat) (px : nat -> nat -> nat -> nat) : tensor (option nat) :=
  mkT [1; C; H; W]%nat (fun idx => match idx with [_; c; h; w] => Some (px c h w) | _ => None end).
(** A vector of C*H*W values as an image. *)
Definition pixels (H W : nat) (v : list nat) (c h w : nat) : nat := nth ((c * H + h) * W + w) v 0%nat.
(** The image [v] has the value of [z] wherever [z] has one. *)
Definition fills (C H W : nat) (z : nat -> nat -> nat -> option nat) (v : list nat) : bool :=
  forallb (fun c => forallb (fun h => forallb (fun w =>
    match z c h w with None => true | Some a => (a =? pixels H W v c h w)%nat end) (seq 0 W)) (seq 0 H)) (seq 0 C).
(** Sampled values are floats. *)
Definition isval (v : nat) (x : num) : bool := match x with Fin r => if Req_EM_T r (INR v) then true else false | _ => false end.
Definition images_are (N C H W : nat) (xs : nat -> nat -> nat -> nat -> nat) (t : tensor num) : bool :=
  forallb (fun n => forallb (fun c => forallb (fun h => forallb (fun w => isval (xs n c h w) (get t [n; c; h; w]))
    (seq 0 W)) (seq 0 H)) (seq 0 C)) (seq 0 N).
Definition free (N : nat) (T : R) : cargs (V := nat) := mkCA (Some N) None false false false T.

(** * Discrete leaves *)
Section LeafDisc.
Variable lf : bleaf nat.
Variable B : nat.
Hypothesis HB : discrete_leaf B lf.
Hypothesis Hlf : leaf_ok lf.
Hypothesis Hpos : (0 < lf_C lf /\ 0 < lf_F lf /\ 0 < lf_L lf /\ 0 < lf_R lf)%nat.
Lemma dpval_pdf c f l r v : (c < lf_C lf)%nat -> (f < lf_F lf)%nat -> (l < lf_L lf)%nat -> (r < lf_R lf)%nat -> (v < B)%nat ->
  pval (lf_logp lf [c; f; l; r] v) = pdf lf c f l r v.
Proof.
  intros Hc Hf Hl Hr Hv. destruct Hlf as [_ H]. unfold pdf. rewrite (isfin_Fin (lf_logp lf [c; f; l; r] v)); [reflexivity|].
  apply H; auto. rewrite (dl_supp B _ HB). apply Nat.ltb_lt. auto.
Qed.
Lemma dpdf_sum c f l r : (c < lf_C lf)%nat -> (f < lf_F lf)%nat -> (l < lf_L lf)%nat -> (r < lf_R lf)%nat -> rsum B (pdf lf c f l r) = 1.
Proof. intros Hc Hf Hl Hr. rewrite <- (dl_sum B _ HB c f l r) by auto. apply rsum_ext. intros v Hv. symmetry. apply dpval_pdf; auto. Qed.
Lemma dB_pos : (0 < B)%nat.
Proof.
  destruct (Nat.eq_dec B 0) as [EB|]; [|lia]. exfalso. destruct Hpos as (A & D & E & F). pose proof (dpdf_sum 0 0 0 0 A D E F) as X. rewrite EB, rsum_0 in X. lra.
Qed.
Lemma din_range c f l r : (c < lf_C lf)%nat -> (f < lf_F lf)%nat -> (l < lf_L lf)%nat -> (r < lf_R lf)%nat -> in_range lf [c; f; l; r] = true.
Proof. intros. unfold in_range. rewrite !andb_true_iff, !Nat.ltb_lt. tauto. Qed.
Lemma dleaf_draw_sum key : rsum B (leaf_draw lf key) = 1.
Proof.
  destruct (in_range lf key) eqn:Er.
  - assert (exists c f l r, key = [c; f; l; r]) as (c & f & l & r & ->).
    { destruct key as [|c [|f [|l [|r [|]]]]]; try discriminate. eauto 6. }
    pose proof Er as Er'. unfold in_range in Er'. rewrite !andb_true_iff, !Nat.ltb_lt in Er'. destruct Er' as (((H1 & H2) & H3) & H4).
    rewrite <- (dpdf_sum c f l r) by auto. apply rsum_ext. intros v Hv. unfold leaf_draw. rewrite Er. apply dpval_pdf; auto.
  - rewrite (rsum_ext _ _ (fun v => if (v =? 0)%nat then 1 else 0)).
    + rewrite (rsum_single B 0%nat); auto; [exact dB_pos|]. intros v _ Hv. destruct (Nat.eqb_spec v 0); [congruence|auto].
    + intros v _. unfold leaf_draw. rewrite Er. auto.
Qed.
Lemma dEL_ok : leaf_expectation (EL_discrete B (leaf_draw lf)).
Proof. apply EL_discrete_ok. apply dleaf_draw_sum. Qed.
Lemma isval_INR v x : isval x (Fin (INR v)) = (v =? x)%nat.
Proof.
  unfold isval. destruct (Req_EM_T (INR v) (INR x)) as [e|e]; destruct (Nat.eqb_spec v x); subst; try congruence.
  apply INR_eq in e. congruence.
Qed.
Lemma dEL_point c f l r x : (c < lf_C lf)%nat -> (f < lf_F lf)%nat -> (l < lf_L lf)%nat -> (r < lf_R lf)%nat -> (x < B)%nat ->
  EL_discrete B (leaf_draw lf) [c; f; l; r] (fun v => if isval x (Fin (INR v)) then 1 else 0) = pdf lf c f l r x.
Proof.
  intros Hc Hf Hl Hr Hx. unfold EL_discrete. rewrite (rsum_single B x); auto.
  - rewrite isval_INR, Nat.eqb_refl, Rmult_1_r. unfold leaf_draw. rewrite din_range by auto. apply dpval_pdf; auto.
  - intros v _ Hv. rewrite isval_INR. destruct (Nat.eqb_spec v x); [congruence|ring].
Qed.
End LeafDisc.

(** * Images *)
Lemma forallb_flat H W (b : nat -> nat -> bool) :
  forallb (fun h => forallb (fun w => b h w) (seq 0 W)) (seq 0 H) = forallb (fun d => b (d / W) (d mod W))%nat (seq 0 (H * W)).
Proof.
  apply eq_true_iff_eq. rewrite !forallb_forall. split.
  - intros X d Hd. apply in_seq in Hd. destruct (flat_split d H W ltac:(lia)) as (h & w & Hh & Hw & ->). rewrite flat_div, flat_mod by auto.
    specialize (X h ltac:(apply in_seq; lia)). rewrite forallb_forall in X. apply X. apply in_seq. lia.
  - intros X h Hh. apply forallb_forall. intros w Hw. apply in_seq in Hh, Hw. specialize (X (h * W + w)%nat). rewrite flat_div, flat_mod in X by lia.
    apply X. apply in_seq. pose proof (flat_lt h w H W). lia.
Qed.
Lemma images_are_rprod N C H W xs t : (if images_are N C H W xs t then 1 else 0) =
  rprod3 N C (H * W) (fun n c f => if isval (xs n c (f / W) (f mod W))%nat (get t [n; c; f / W; f mod W]%nat) then 1 else 0).
Proof.
  unfold images_are, rprod3. rewrite forallb_rprod. apply rprod_ext. intros n _. rewrite forallb_rprod. apply rprod_ext. intros c _.
  rewrite forallb_flat, forallb_rprod. reflexivity.
Qed.
Lemma forallb_ext_in {A} (f g : A -> bool) l : (forall a, In a l -> f a = g a) -> forallb f l = forallb g l.
Proof. induction l as [|a l IH]; intros H; auto. cbn [forallb]. rewrite H, IH; cbn; auto. intros; apply H; cbn; auto. Qed.
Lemma pixels_flat H W v c f : (f < H * W)%nat -> pixels H W v c (f / W) (f mod W) = nth (c * (H * W) + f) v 0%nat.
Proof.
  intros Hf. destruct (flat_split f H W Hf) as (h & w & Hh & Hw & ->). rewrite flat_div, flat_mod by auto. unfold pixels. f_equal. ring.
Qed.
Lemma fills_completes C H W z v : fills C H W z v = completes C (H * W) (fun c f => z c (f / W) (f mod W))%nat v.
Proof.
  unfold fills, completes. apply forallb_ext_in. intros c _. rewrite forallb_flat. apply forallb_ext_in. intros f Hf. apply in_seq in Hf.
  rewrite pixels_flat by lia. reflexivity.
Qed.

Lemma clik_eval' {V} (P : convpc V) us : conv_ok P us -> forall st N x n, images P N x -> (n < N)%nat ->
  clik P st x n = neteval (conv_net P us 1) (lval (pdf (cp_leaf P)) (image P x n)) 0.
Proof.
  intros HP st N x n Hx Hn. unfold clik. destruct (conv_forward_ok P us HP st N x Hx) as (cas & y & -> & _ & _ & Gy). cbn [snd]. rewrite Gy by auto.
  cbn [pval]. apply exp_ln. apply conv_value_pos. exact HP.
Qed.

Section Disc.
Variable P : convpc nat.
Variable us : R -> list ulayer.
Hypothesis HP : conv_ok P us.
Variable B : nat.
Hypothesis HB : discrete_leaf B (cp_leaf P).
Let C := cp_C P. Let H := cp_H P. Let W := cp_W P. Let lf := cp_leaf P.

Lemma clf_pos : (0 < lf_C lf /\ 0 < lf_F lf /\ 0 < lf_L lf /\ 0 < lf_R lf)%nat.
Proof.
  destruct (co_leafs _ _ HP) as [A1 A2 A3 A4 A5 A6 A7 A8 A9]. unfold lf. rewrite A1, A2, A3, A4. repeat split; auto. nia.
Qed.
Lemma clik_eval st N x n : images P N x -> (n < N)%nat -> clik P st x n = neteval (conv_net P us 1) (lval (pdf lf) (image P x n)) 0.
Proof. apply clik_eval'. exact HP. Qed.
Lemma one_image_images px : (forall c h w, (c < C)%nat -> (h < H)%nat -> (w < W)%nat -> (px c h w < B)%nat) -> images P 1 (one_image C H W px).
Proof.
  intros Hp. split; [reflexivity|]. intros n c h w v Hn Hc Hh Hw E. cbn in E. injection E as <-. rewrite (dl_supp B _ HB). apply Nat.ltb_lt. auto.
Qed.
Lemma clik_one st px : (forall c h w, (c < C)%nat -> (h < H)%nat -> (w < W)%nat -> (px c h w < B)%nat) ->
  clik P st (one_image C H W px) 0 = neteval (conv_net P us 1) (lval (pdf lf) (fun c f => Some (px c (f / W) (f mod W))%nat)) 0.
Proof. intros Hp. rewrite (clik_eval st 1); auto. apply one_image_images; auto. Qed.
Lemma pixels_lt v : In v (vectors B (C * H * W)) -> forall c h w, (c < C)%nat -> (h < H)%nat -> (w < W)%nat -> (pixels H W v c h w < B)%nat.
Proof.
  intros Hv c h w Hc Hh Hw. apply vectors_In in Hv as [Hl Hv]. apply Hv. pose proof (flat_lt c h C H Hc Hh). pose proof (flat_lt (c * H + h) w (C * H) W H0 Hw). exact H1.
Qed.
Theorem clik_fills st N x n : images P N x -> (n < N)%nat ->
  clik P st x n = lsum (fun v => clik P st (one_image C H W (pixels H W v)) 0)
    (filter (fills C H W (fun c h w => get x [n; c; h; w])) (vectors B (C * H * W))).
Proof.
  intros Hx Hn. rewrite (clik_eval st N) by auto.
  destruct (co_leafs _ _ HP) as [A1 A2 A3 A4 A5 A6 A7 A8 A9]. pose proof clf_pos as HPos.
  rewrite (net_completions (conv_net P us 1) (conv_net_wf P us HP 1) B (pdf lf)).
  - unfold sum_points. cbn [conv_net nC nF]. fold C H W.
    replace (C * (H * W))%nat with (C * H * W)%nat by ring.
    rewrite (filter_ext _ (fills C H W (fun c h w => get x [n; c; h; w]))) by (intros v; symmetry; apply fills_completes).
    apply lsum_ext. intros v Hv. apply filter_In in Hv as [Hv _]. rewrite clik_one by (apply pixels_lt; auto).
    apply neteval_ext; [apply conv_net_wf; exact HP|cbn; lia|]. intros c f l r Hc Hf _ _. unfold lval. rewrite pixels_flat by exact Hf. reflexivity.
  - intros c f l r v Hc Hf Hl Hr. left. unfold pdf. apply exp_pos.
  - intros c f l r Hc Hf Hl Hr. apply dpdf_sum; auto; unfold lf; try rewrite A1; try rewrite A2; try rewrite A3; try rewrite A4; auto.
  - cbn. lia.
  - intros c f v Hc Hf Hv. destruct Hx as [_ Hx]. cbn [conv_net nC nF] in Hc, Hf. destruct (flat_split f _ _ Hf) as (h & w & Hh & Hw & ->).
    unfold image in Hv. rewrite flat_div, flat_mod in Hv by auto. specialize (Hx n c h w v Hn Hc Hh Hw Hv). rewrite (dl_supp B _ HB) in Hx. apply Nat.ltb_lt. auto.
Qed.
Theorem clik_sum st : lsum (fun v => clik P st (one_image C H W (pixels H W v)) 0) (vectors B (C * H * W)) = 1.
Proof.
  set (x := mkT [1; C; H; W]%nat (fun _ => @None nat)).
  assert (Hx: images P 1 x) by (split; [reflexivity|intros; discriminate]).
  pose proof (clik_fills st 1 x 0 Hx Nat.lt_0_1) as X. rewrite (clik_eval st 1) in X by auto.
  rewrite (neteval_one (conv_net P us 1)) in X; [|apply conv_net_wf; exact HP|cbn; lia|intros c f l r _ _ _ _; reflexivity].
  rewrite X. rewrite lsum_filter. apply lsum_ext. intros v _.
  replace (fills C H W _ v) with true; auto. symmetry. unfold fills. apply forallb_forall. intros c _. apply forallb_forall. intros h _. apply forallb_forall. intros w _. reflexivity.
Qed.

Hypothesis Hctx : lf_ctx lf = true.
(** Free samples when no cache is enabled. *)
Theorem conv_sample_law st N T xs : st_on st = false -> T <> 0 ->
  (forall n c h w, (n < N)%nat -> (c < C)%nat -> (h < H)%nat -> (w < W)%nat -> (xs n c h w < B)%nat) ->
  Pr B lf (snd (conv_sample P INR st (free N T))) (images_are N C H W xs) =
  rprod N (fun n => neteval (conv_net P us T) (lval (pdf lf) (fun c f => Some (xs n c (f / W) (f mod W))%nat)) 0).
Proof.
  intros Hst HT Hxs. destruct (co_leafs _ _ HP) as [A1 A2 A3 A4 A5 A6 A7 A8 A9]. pose proof clf_pos as HPos.
  set (EL := EL_discrete B (leaf_draw lf)). assert (HEL: leaf_expectation EL) by (apply dEL_ok; auto).
  cbn [conv_sample free ca_num ca_ev snd].
  pose proof (clays_law_off EL HEL _ _ _ _ _ _ _ _ T N (co_clays _ _ HP) HT) as HL.
  assert (EV: live P st = map (fun _ => None) (cp_layers P)) by (unfold live; rewrite Hst; auto). rewrite <- EV in HL.
  destruct (conv_free_law P us HP EL HEL INR st (free N T) N _ _ (fun n c f x => if isval (xs n c (f / W) (f mod W))%nat x then 1 else 0) Hctx eq_refl eq_refl eq_refl HL) as [_ X].
  unfold Pr. fold EL. rewrite (expect_ext EL HEL _ _ _ (images_are_rprod N C H W xs)). unfold free in *. etransitivity; [exact X|].
  apply rprod_ext. intros n Hn. rewrite conv_neteval.
  pose proof (clays_chain _ _ _ _ _ _ _ _ T (co_clays _ _ HP)) as CH.
  assert (E1: evals (us T) (fun _ _ _ => 1) 0%nat 0%nat 0%nat = 1).
  { apply (evals_one _ _ _ _ _ _ (fun _ _ _ => 1) CH); [intros d l r _ _ _; reflexivity|lia|lia|lia]. }
  rewrite E1. clear E1.
  unfold Rdiv. rewrite Rinv_1, Rmult_1_r.
  apply (evals_ext _ _ _ _ _ _ _ _ CH); try lia. intros d l r Hd Hl Hr. rewrite conv_leafval by exact Hd. unfold vmul. rewrite Rmult_1_r.
  apply rprod_ext. intros c Hc. replace r with 0%nat by lia. unfold lval. destruct (flat_split d _ _ Hd) as (h & w & Hh & Hw & ->). 
  fold W in Hw |- *. rewrite flat_div, flat_mod by auto. apply dEL_point; auto; unfold lf; try rewrite A1; try rewrite A2; try rewrite A3; try rewrite A4; auto.
Qed.
Theorem conv_sample_prob st N xs : st_on st = false ->
  (forall n c h w, (n < N)%nat -> (c < C)%nat -> (h < H)%nat -> (w < W)%nat -> (xs n c h w < B)%nat) ->
  Pr B lf (snd (conv_sample P INR st (free N 1))) (images_are N C H W xs) = rprod N (fun n => clik P st (one_image C H W (xs n)) 0).
Proof.
  intros Hst Hxs. rewrite conv_sample_law by (auto; lra). apply rprod_ext. intros n Hn. rewrite clik_one by auto. reflexivity.
Qed.
End Disc.

(** * Every free sample is an image *)
Section Any.
Context {V : Type}.

Lemma csum_hot s S H W T N ca v mpe p i : csum_ok s S H W -> T <> 0 -> cache_ok ca N S H W v -> hotat p N (cs_out s) H W i ->
  forall supp r, outcome supp (@csum_sample V s T mpe ca p) r -> exists o j, r = Ok o /\ hotat o N S H W j.
Proof.
  intros Hs HT Hc Hp supp r Ho. destruct (csum_weights_ok s S H W T p N i ca v Hs HT Hp Hc) as (lw & lw' & E1 & E2 & Hw).
  unfold csum_sample in Ho. rewrite E1 in Ho. cbn [lift mbind] in Ho. rewrite E2 in Ho. cbn [lift mbind] in Ho. unfold simple_draw in Ho.
  destruct mpe.
  - cbn [mbind] in Ho. pose proof Hw as [Sw _]. pose proof Hs as (_ & _ & _ & HS & _).
    destruct (straight_ok lw' (targmax 1 (tsoftmax 1 lw')) N S H W _ Hw) as (o & Eo & Hh).
    + unfold targmax, reduce. cbn [shape tsoftmax]. rewrite Sw. reflexivity.
    + intros n h w Hn Hh Hw'. unfold targmax, reduce. cbn [get]. unfold size. cbn [shape tsoftmax]. rewrite Sw. cbn [nth]. apply nargmax_lt. auto.
    + rewrite Eo in Ho. apply outcome_ret_inv in Ho. eauto.
  - pose proof Hs as (_ & _ & _ & HS & _). apply outcome_bind in Ho as [(e & Ho & ->)|(k & Ho & Hr)].
    + destruct (cat_dim_outcome _ _ _ _ _ _ _ _ HS Hw Ho) as (t & E & _). discriminate.
    + destruct (cat_dim_outcome _ _ _ _ _ _ _ _ HS Hw Ho) as (t & E & St & Gt). inversion E; subst t.
      destruct (straight_ok lw' k N S H W _ Hw St Gt) as (o & Eo & Hh). rewrite Eo in Hr. apply outcome_ret_inv in Hr. eauto.
Qed.
Lemma clay_hot l S H W us S' H' W' T N mpe p i : clay l S H W us S' H' W' -> T <> 0 -> hotat p N S' H' W' i ->
  forall supp r, outcome supp (@clayer_sample V T mpe l None p) r -> exists o j, r = Ok o /\ hotat o N S H W j.
Proof.
  intros C HT Hp supp r Ho. pose proof (layer_cache_none _ _ _ _ _ _ _ _ N C) as LC.
  destruct C as [s S H W Hs|kh kw S H W H' W' Ht|s kh kw S H W H' W' Hs Ht|s kh kw S H W H' W' Ht Hs]; cbn [layer_cache clayer_sample] in *.
  - eapply csum_hot; eauto.
  - apply outcome_ret_inv in Ho. subst. eexists. eexists. split; [reflexivity|]. eapply prod_sample_hot; eauto.
  - eapply csum_hot; eauto. eapply prod_sample_hot; eauto.
  - destruct (tiles_div _ _ _ _ _ _ Ht) as [EH EW]. rewrite EH, EW in LC. apply outcome_bind in Ho as [(e & Ho & ->)|(o & Ho & Hr)].
    + edestruct csum_hot as (o & j & E & _); [exact Hs|exact HT|exact LC|exact Hp|exact Ho|discriminate].
    + edestruct csum_hot as (o' & j & E & Hj); [exact Hs|exact HT|exact LC|exact Hp|exact Ho|]. inversion E; subst o'. apply outcome_ret_inv in Hr. subst.
      eexists. eexists. split; [reflexivity|]. eapply prod_sample_hot; eauto.
Qed.
Lemma clays_hot ls S H W us S' H' W' T N mpe p i : clays ls S H W us S' H' W' -> T <> 0 -> hotat p N S' H' W' i ->
  forall supp r, outcome supp (@clayers_sample V T mpe (combine ls (map (fun _ => None) ls)) p) r -> exists o j, r = Ok o /\ hotat o N S H W j.
Proof.
  intros C HT. induction C as [S H W|l ls S H W us S1 H1 W1 us' S2 H2 W2 HL C IH]; intros Hp supp r Ho; cbn [combine map clayers_sample] in Ho.
  - apply outcome_ret_inv in Ho. eauto.
  - apply outcome_bind in Ho as [(e & Ho & ->)|(o & Ho & Hr)].
    + destruct (IH Hp _ _ Ho) as (o & j & E & _). discriminate.
    + destruct (IH Hp _ _ Ho) as (o' & j & E & Hj). inversion E; subst o'. eapply clay_hot; eauto.
Qed.
(** Where a leaf value comes from. *)
Definition drawn_from (lf : bleaf V) (mode : bool) (supp : list nat -> V -> Prop) (key : list nat) (v : V) : Prop :=
  if mode then exists md, lf_mode lf = Some md /\ v = md key else supp key v.
Lemma leaf_raw lf N mode supp r : (mode = true -> lf_mode lf <> None) -> outcome supp (leaf_mode_or_draw lf N mode) r ->
  exists s, r = Ok s /\ shape s = [N; 1; lf_C lf; lf_F lf; lf_L lf; lf_R lf; 1]%nat /\
  forall n c f l rr, (n < N)%nat -> (c < lf_C lf)%nat -> (f < lf_F lf)%nat -> (l < lf_L lf)%nat -> (rr < lf_R lf)%nat ->
    drawn_from lf mode supp [c; f; l; rr] (get s [n; 0; c; f; l; rr; 0]%nat).
Proof.
  intros Hm Ho. unfold leaf_mode_or_draw in Ho. destruct mode; cbn [drawn_from].
  - destruct (lf_mode lf) as [md|] eqn:Em; [|exfalso; apply Hm; auto]. unfold repeat_t in Ho. cbn [shape length Nat.eqb lift mbind map2] in Ho.
    rewrite !Nat.mul_1_r, !Nat.mul_1_l in Ho. apply outcome_ret_inv in Ho. subst. eexists. split; [reflexivity|]. split; [reflexivity|].
    intros n c f l rr Hn Hc Hf Hl Hr. exists md. split; auto. cbn [unsqueeze get remove_nth map2 tl]. rewrite !Nat.mod_small by auto. reflexivity.
  - apply outcome_bind in Ho as [(e & Ho & ->)|(s & Ho & Hs)].
    + apply outcome_draw_tensor in Ho as [(e' & idx & E & _ & Hd)|(t & E & _)]; [|discriminate]. inversion Hd as [| | | |key kk v' rr Hv Hr]; subst. inversion Hr.
    + apply outcome_draw_tensor in Ho as [(e' & idx & E & _)|(t & E & St & Gt)]; [discriminate|]. inversion E; subst t.
      apply outcome_ret_inv in Hs. exists (unsqueeze 6 s). split; auto. split; [cbn [unsqueeze shape]; rewrite St; reflexivity|].
      intros n c f l rr Hn Hc Hf Hl Hr. cbn [unsqueeze get remove_nth]. specialize (Gt [n; 0; c; f; l; rr]%nat ltac:(simpl; repeat split; auto; lia)).
      cbn [skipn] in Gt. inversion Gt as [| | | |key kk v' rr' Hv Hrr]; subst. inversion Hrr; subst. auto.
Qed.

Theorem conv_sample_image (P : convpc V) us val st a N : conv_ok P us -> st_on st = false -> lf_ctx (cp_leaf P) = true ->
  ca_num a = Some N -> ca_ev a = None -> ca_params a = false -> ca_tsum a <> 0 ->
  (ca_mpe a || ca_mpel a = true -> lf_mode (cp_leaf P) <> None) ->
  forall supp r, outcome supp (snd (conv_sample P val st a)) r ->
  exists t, r = Ok t /\ shape t = [N; cp_C P; cp_H P; cp_W P] /\
  forall n c h w, (n < N)%nat -> (c < cp_C P)%nat -> (h < cp_H P)%nat -> (w < cp_W P)%nat ->
    exists l v, (l < cp_L P)%nat /\ get t [n; c; h; w] = Fin (val v) /\
      drawn_from (cp_leaf P) (ca_mpe a || ca_mpel a) supp [c; h * cp_W P + w; l; 0]%nat v.
Proof.
  intros HP Hst Hctx Hn He Hpar HT Hm supp r Ho. unfold conv_sample in Ho. rewrite Hn, He in Ho. cbn [snd] in Ho.
  assert (EP: conv_free P val st a N = (p <~ clayers_sample (ca_tsum a) (ca_mpe a) (combine (cp_layers P) (map (fun _ => None) (cp_layers P))) (full [N; 1; 1; 1]%nat (Fin 1)) ;;
     s <~ leaf_mode_or_draw (cp_leaf P) N (ca_mpe a || ca_mpel a) ;; lift (finish P val p s N))).
  { unfold conv_free, live. rewrite Hst, Hctx, Hpar. reflexivity. }
  rewrite EP in Ho. clear EP. destruct (co_leafs _ _ HP) as [A1 A2 A3 A4 A5 A6 A7 A8 A9].
  pose proof (clays_hot _ _ _ _ _ _ _ _ _ N (ca_mpe a) _ _ (co_clays _ _ HP) HT (root_hot P N)) as CH.
  apply outcome_bind in Ho as [(e & Ho & ->)|(p & Hp & Ho)].
  - destruct (CH _ _ Ho) as (o & j & E & _). discriminate.
  - destruct (CH _ _ Hp) as (o & j & E & Hj). inversion E; subst o. apply outcome_bind in Ho as [(e & Ho & ->)|(s & Hs & Ho)].
    + destruct (leaf_raw _ _ _ _ _ Hm Ho) as (s & E' & _). discriminate.
    + destruct (leaf_raw _ _ _ _ _ Hm Hs) as (s' & E' & Ss & Gs). inversion E'; subst s'. rewrite A1, A2, A3, A4 in Ss, Gs.
      destruct (finish_ok P us HP val N p j s Hj Ss) as (t & Et & St & Gt). rewrite Et in Ho. apply outcome_ret_inv in Ho. exists t. split; auto. split; auto.
      intros n c h w Hn' Hc Hh Hw. pose proof Hj as (_ & Hi & _). pose proof (flat_lt h w _ _ Hh Hw) as Hf. specialize (Hi n _ Hn' Hf).
      rewrite Gt by auto. eexists. eexists. split; [exact Hi|]. split; [reflexivity|]. apply Gs; auto.
Qed.
End Any.

(** * Caches left enabled *)
Lemma store_seen {V} (P : convpc V) cas N S H W v : all_seen N (cp_layers P) S H W v cas ->
  store (mkSt true (map (fun _ => None) (cp_layers P))) cas = mkSt true cas.
Proof.
  intros Ha. unfold store. cbn [st_on st_in]. f_equal. revert Ha. generalize (cp_layers P). intros ls Ha.
  induction Ha as [|l ls S H W us S1 H1 W1 v ca cas _ _ _ IH]; [reflexivity|]. cbn [map combine fst snd]. rewrite IH. destruct ca; reflexivity.
Qed.
Section Stuck.
Variable P : convpc nat.
Variable us : R -> list ulayer.
Hypothesis HP : conv_ok P us.
Variable B : nat.
Hypothesis HB : discrete_leaf B (cp_leaf P).
Hypothesis Hctx : lf_ctx (cp_leaf P) = true.
Let C := cp_C P. Let H := cp_H P. Let W := cp_W P. Let lf := cp_leaf P.
(** After a call with evidence and a forward pass on [x], samples depend on [x]. *)
Theorem stuck_law N x xs : images P N x ->
  (forall n c h w, (n < N)%nat -> (c < C)%nat -> (h < H)%nat -> (w < W)%nat -> (xs n c h w < B)%nat) ->
  Pr B lf (snd (conv_sample P INR (fst (conv_forward P (mkSt true (map (fun _ => None) (cp_layers P))) x)) (free N 1))) (images_are N C H W xs) =
  rprod N (fun n => evals (us 1) (vmul (leafval (conv_net P us 1) (lval (pdf lf) (fun c f => Some (xs n c (f / W) (f mod W))%nat)))
     (leafval (conv_net P us 1) (lval (pdf lf) (image P x n)))) 0%nat 0%nat 0%nat / neteval (conv_net P us 1) (lval (pdf lf) (image P x n)) 0).
Proof.
  intros Hx Hxs. destruct (co_leafs _ _ HP) as [A1 A2 A3 A4 A5 A6 A7 A8 A9]. pose proof (clf_pos P us HP) as HPos.
  set (EL := EL_discrete B (leaf_draw lf)). assert (HEL: leaf_expectation EL) by (apply dEL_ok; auto).
  destruct (conv_forward_ok P us HP (mkSt true (map (fun _ => None) (cp_layers P))) N x Hx) as (cas & y & -> & _ & Ha & _). cbn [fst].
  rewrite (store_seen _ _ _ _ _ _ _ Ha). cbn [conv_sample free ca_num ca_ev snd].
  assert (Hv: forall n, (n < N)%nat -> vpos (cp_H P * cp_W P) (cp_L P) 1 (leafval (conv_net P us 1) (lval (pdf (cp_leaf P)) (image P x n)))).
  { intros n Hn d l r Hd Hl Hr. rewrite conv_leafval by exact Hd. apply rprod_pos. intros. apply lval_pos. }
  pose proof (clays_law_on EL HEL _ _ _ _ _ _ _ _ N (co_clays _ _ HP) _ _ Hv Ha) as HL.
  destruct (conv_free_law P us HP EL HEL INR (mkSt true cas) (free N 1) N _ _ (fun n c f x => if isval (xs n c (f / W) (f mod W))%nat x then 1 else 0) Hctx eq_refl eq_refl eq_refl HL) as [_ X].
  unfold Pr. fold EL. rewrite (expect_ext EL HEL _ _ _ (images_are_rprod N C H W xs)). unfold free in *. etransitivity; [exact X|].
  apply rprod_ext. intros n Hn. rewrite conv_neteval. unfold Rdiv. f_equal.
  pose proof (clays_chain _ _ _ _ _ _ _ _ 1 (co_clays _ _ HP)) as CH.
  apply (evals_ext _ _ _ _ _ _ _ _ CH); try lia. intros d l r Hd Hl Hr. unfold vmul. f_equal. rewrite conv_leafval by exact Hd.
  apply rprod_ext. intros c Hc. replace r with 0%nat by lia. unfold lval. destruct (flat_split d _ _ Hd) as (h & w & Hh & Hw & ->).
  fold W in Hw |- *. rewrite flat_div, flat_mod by auto. apply dEL_point; auto; unfold lf; try rewrite A1; try rewrite A2; try rewrite A3; try rewrite A4; auto.
Qed.
End Stuck.

(** * Temperature *)
(** The same model with every logit divided by [T]. *)
Definition divided (T : R) (x : num) : num := match x with Fin r => Fin (r / T) | y => y end.
Definition cool_sum (T : R) (s : csum) : csum := mkCS (cs_in s) (cs_out s) (cs_h s) (cs_w s) (tmap (divided T) (cs_logits s)).
Definition cool_layer (T : R) (l : clayer) : clayer :=
  match l with CSum s => CSum (cool_sum T s) | CProd kh kw => CProd kh kw | CSumProd o s kh kw => CSumProd o (cool_sum T s) kh kw end.
Definition cool {V} (T : R) (P : convpc V) : convpc V :=
  mkCP (cp_C P) (cp_H P) (cp_W P) (cp_L P) (cp_leaf P) (map (cool_layer T) (cp_layers P)).

Lemma cool_sum_ok T s S H W : csum_ok s S H W -> csum_ok (cool_sum T s) S H W.
Proof.
  intros (A & B & C & D & E & F & G). unfold csum_ok, cool_sum. cbn. repeat split; auto.
  intros idx Hi. specialize (G idx Hi). cbn. destruct (get (cs_logits s) idx); auto.
Qed.
Lemma cool_sum_u T s : csum_u (cool_sum T s) 1 = csum_u s T.
Proof.
  unfold csum_u. cbn [cool_sum cs_in cs_out cs_h cs_w]. f_equal.
  do 3 (apply functional_extensionality; intros ?). apply functional_extensionality. intros k. unfold csum_w, wsoft. cbn [cool_sum cs_in cs_logits cs_w tmap get].
  apply (f_equal (fun f => rsoftmax (cs_in s) f k)). apply functional_extensionality. intros j.
  destruct (get _ _); cbn [divided toR]; unfold Rdiv; rewrite Rinv_1; ring.
Qed.
Lemma cool_clay T l S H W us S' H' W' : clay l S H W us S' H' W' -> exists us', clay (cool_layer T l) S H W us' S' H' W' /\ us' 1 = us T.
Proof.
  intros C. destruct C as [s S H W Hs|kh kw S H W H' W' Ht|s kh kw S H W H' W' Hs Ht|s kh kw S H W H' W' Ht Hs]; cbn [cool_layer].
  - eexists. split; [apply (clay_sum (cool_sum T s)); apply cool_sum_ok; auto|]. cbn beta. rewrite cool_sum_u. reflexivity.
  - eexists. split; [apply clay_prod; exact Ht|reflexivity].
  - eexists. split; [apply (clay_sp (cool_sum T s) kh kw S H W H' W'); auto; apply cool_sum_ok; auto|]. cbn beta. rewrite cool_sum_u. reflexivity.
  - eexists. split; [apply (clay_ps (cool_sum T s) kh kw S H W H' W'); auto; apply cool_sum_ok; auto|]. cbn beta. rewrite cool_sum_u. reflexivity.
Qed.
Lemma cool_clays T ls S H W us S' H' W' : clays ls S H W us S' H' W' -> exists us', clays (map (cool_layer T) ls) S H W us' S' H' W' /\ us' 1 = us T.
Proof.
  intros C. induction C as [S H W|l ls S H W us S1 H1 W1 us' S2 H2 W2 HL C (u & Hu & Eu)].
  - eexists. split; [constructor|reflexivity].
  - destruct (cool_clay T _ _ _ _ _ _ _ _ HL) as (u0 & Hu0 & E0). eexists. split; [econstructor; eauto|]. cbn beta. rewrite E0, Eu. reflexivity.
Qed.
Lemma cool_ok {V} (P : convpc V) us T : conv_ok P us -> exists us', conv_ok (cool T P) us' /\ us' 1 = us T.
Proof.
  intros [[A1 A2 A3 A4 A5 A6 A7 A8 A9] HL HC]. destruct (cool_clays T _ _ _ _ _ _ _ _ HC) as (us' & HC' & E). exists us'. split; auto. split; auto. split; auto.
Qed.
Theorem conv_sample_tempered (P : convpc nat) us B st st' N T xs : conv_ok P us -> discrete_leaf B (cp_leaf P) -> lf_ctx (cp_leaf P) = true -> st_on st = false -> T <> 0 ->
  (forall n c h w, (n < N)%nat -> (c < cp_C P)%nat -> (h < cp_H P)%nat -> (w < cp_W P)%nat -> (xs n c h w < B)%nat) ->
  Pr B (cp_leaf P) (snd (conv_sample P INR st (free N T))) (images_are N (cp_C P) (cp_H P) (cp_W P) xs) =
  rprod N (fun n => clik (cool T P) st' (one_image (cp_C P) (cp_H P) (cp_W P) (xs n)) 0).
Proof.
  intros HP HB Hctx Hst HT Hxs. rewrite (conv_sample_law P us HP B HB Hctx) by auto. destruct (cool_ok P us T HP) as (us' & HP' & E).
  apply rprod_ext. intros n Hn. etransitivity; [|symmetry; exact (clik_one (cool T P) us' HP' B HB st' (xs n) (fun c h w => Hxs n c h w Hn))].
  unfold conv_net. rewrite E. reflexivity.
Qed.
