(** C85: reconstructions keep one part of the test images and redraw the other. *)
From Coq Require Import List Arith Lia Bool ZArith Reals Lra Permutation.
Import ListNotations.
From Verif Require Import Base RSum Num Tensor Prob Layers Circuit Net RefFwd Leaf RefLeaf TypeChecks Einet RefNet RefEinet RefEinetS RefMpe RefMv Build RefBuild Spec RefSpec RefSpecS RefPack
  Density Diff RefDiff PropDiff PropForward PropSample PropConvD PropDensity Generate RefGenerate PropGenerate Recon Ex Family RefFamily Gauss Integral.
Local Open Scope R_scope.
Local Arguments Nat.div : simpl never. Local Arguments Nat.modulo : simpl never. Local Arguments Nat.sub : simpl never.
Local Arguments Nat.mul : simpl never. Local Arguments Nat.add : simpl never.

(** * Vocabulary *)
(** The network has one variable per pixel and channel. *)
Definition sized {V} (E : einet V) (s : ishape) : Prop := e_C E = i_C s /\ e_F E = (i_H s * i_W s)%nat.
(** [r] is half of [n]; of two nearest numbers the even one *)
Definition half_of (n r : nat) : Prop := (2 * r = n \/ Nat.even r = true /\ (2 * r = n + 1 \/ 2 * r + 1 = n))%nat.
(** A pixel of value [v] in the pictures: divided by the number of bins unless leaves are Gaussian *)
Definition shown {V} (val : V -> R) (gauss : bool) (n_bins : R) (v : V) : num := Fin (if gauss then val v else val v / n_bins).
Definition complete {V} (E : einet V) (N : nat) (x : tensor (option V)) : Prop :=
  forall n c f, (n < N)%nat -> (c < e_C E)%nat -> (f < e_F E)%nat -> entry x n c f <> None.

(** * The scopes *)
Lemma half_even_of n : half_of n (half_even n).
Proof.
  unfold half_of, half_even. pose proof (Nat.div_mod n 2 ltac:(lia)) as D. pose proof (Nat.mod_upper_bound n 2 ltac:(lia)) as M.
  destruct (Nat.eqb_spec (n mod 2) 0) as [Z|Z]; cbn [orb]; [left; lia|]. right. destruct (Nat.even (n / 2)) eqn:Ev; [split; [auto|lia]|].
  split; [rewrite Nat.even_succ, <- Nat.negb_even, Ev; reflexivity|lia].
Qed.
Lemma half_unique n r q : half_of n r -> half_of n q -> r = q.
Proof.
  unfold half_of. intros [A|[A B]] [C|[C D]]; try lia. destruct (Nat.eq_dec r q) as [|Hne]; auto. exfalso.
  assert (Q: (r = S q \/ q = S r)%nat) by lia. destruct Q as [-> | ->]; rewrite Nat.even_succ, <- Nat.negb_even in *; rewrite ?A, ?C in *; discriminate.
Qed.
Lemma in_recon s p : In p (recon_scopes s) <-> exists c h w, (c < i_C s)%nat /\ (h < half_even (i_W s))%nat /\ (h < i_H s)%nat /\ (w < i_W s)%nat /\ p = ((c * i_H s + h) * i_W s + w)%nat.
Proof.
  unfold recon_scopes. rewrite in_flat_map. split.
  - intros (c & Hc & H). apply in_flat_map in H as (h & Hh & H). apply in_map_iff in H as (w & <- & Hw). apply in_seq in Hc, Hh, Hw. exists c, h, w. repeat split; lia.
  - intros (c & h & w & Hc & H1 & H2 & Hw & ->). exists c. split; [apply in_seq; lia|]. apply in_flat_map. exists h. split; [apply in_seq; lia|]. apply in_map_iff. exists w. split; [reflexivity|apply in_seq; lia].
Qed.
(** One channel: the pixels of the first rows *)
Lemma in_recon_1 s h w : i_C s = 1%nat -> (h < i_H s)%nat -> (w < i_W s)%nat -> In (h * i_W s + w)%nat (recon_scopes s) <-> (h < half_even (i_W s))%nat.
Proof.
  intros HC Hh Hw. rewrite in_recon. split.
  - intros (c & h' & w' & Hc & H1 & H2 & Hw' & E). rewrite HC in Hc. assert (c = 0%nat) by lia. subst c.
    assert (h = h') by (apply (f_equal (fun p => p / i_W s)%nat) in E; rewrite !flat_div in E by auto; lia). lia.
  - intros H. exists 0%nat, h, w. rewrite HC. repeat split; try lia.
Qed.

(** * Reshaping *)
Lemma numel_squeeze s : numel (filter (fun d => negb (d =? 1)%nat) s) = numel s.
Proof. induction s as [|d s IH]; [reflexivity|]. cbn [filter]. destruct (Nat.eqb_spec d 1) as [->|]; cbn [negb numel]; rewrite IH; lia. Qed.
Lemma view_pictures (t : tensor num) N C H W : (0 < C)%nat -> (0 < H * W)%nat -> (0 < N)%nat -> wshape (shape t) N C (H * W) ->
  exists u, view_infer [] [C; H; W] (squeeze_all t) = Ok u /\ shape u = [N; C; H; W] /\
  forall n c h w, (n < N)%nat -> (c < C)%nat -> (h < H)%nat -> (w < W)%nat -> get u [n; c; h; w] = entry t n c (h * W + w)%nat.
Proof.
  intros HC HW HN Hs. assert (NE: numel (shape t) = (N * (C * (H * W)))%nat).
  { assert (L0: (0 < C /\ 0 < H * W)%nat) by lia. destruct (ix_ravel (shape t) N C (H * W) 0 0 0 Hs HN HC HW) as (_ & _ & ->). cbn [numel]. ring. }
  unfold view_infer. cbn [numel app].
  destruct (Nat.eqb_spec (1 * (C * (H * (W * 1)))) 0) as [Z|_]; [nia|].
  assert (NS: numel (shape (squeeze_all t)) = (N * (C * (H * W)))%nat) by (unfold squeeze_all; cbn [shape]; rewrite numel_squeeze; exact NE).
  replace (numel (shape (squeeze_all t)) / (1 * (C * (H * (W * 1)))))%nat with N.
  2:{ rewrite NS. replace (1 * (C * (H * (W * 1))))%nat with (C * (H * W))%nat by ring. symmetry. apply Nat.div_mul. nia. }
  unfold view. rewrite NS. replace (numel [N; C; H; W]) with (N * (C * (H * W)))%nat by (cbn [numel]; ring). rewrite Nat.eqb_refl. eexists. split; [reflexivity|]. split; [reflexivity|].
  intros n c h w Hn Hc Hh Hw. cbn [get squeeze_all shape]. set (m := ravel [N; C; H; W] [n; c; h; w]).
  assert (Hm: (m < numel (shape t))%nat).
  { rewrite NE. replace (N * (C * (H * W)))%nat with (numel [N; C; H; W]) by (cbn [numel]; ring). apply ravel_lt. cbn [inb]. auto. }
  rewrite ravel_unravel by (rewrite numel_squeeze; exact Hm). unfold entry. f_equal.
  destruct (ix_ravel (shape t) N C (H * W) n c (h * W + w) Hs Hn Hc (RefConv.flat_lt _ _ _ _ Hh Hw)) as (I1 & I2 & _).
  rewrite <- (unravel_ravel _ _ I1). f_equal. rewrite I2. unfold m. cbn [ravel numel]. ring.
Qed.
Lemma unscale_shape g nb t : shape (unscale g nb t) = shape t.
Proof. destruct g; reflexivity. Qed.
Lemma unscale_entry {V} (val : V -> R) g nb (t : tensor (option V)) n c f v : nb <> 0 -> entry t n c f = Some v -> entry (unscale g nb (numbers val t)) n c f = shown val g nb v.
Proof.
  intros Hb He. unfold entry in *. rewrite unscale_shape. cbn [numbers tmap shape]. unfold unscale, shown. destruct g; cbn [tmap get numbers]; rewrite He; [reflexivity|].
  cbn [ndiv]. destruct (Req_EM_T nb 0); [lra|reflexivity].
Qed.

Definition mode_ok {V} (E : einet V) : Prop := exists md, lf_mode (leafE E) = Some md /\
  forall c f l r, (c < e_C E)%nat -> (f < e_F E)%nat -> (l < e_L E)%nat -> (r < e_R E)%nat -> lf_supp (leafE E) (md [c; f; l; r]) = true.
Lemma numbers_of {V} (val : V -> R) us g o (E : einet V) diff mp mpel N x ms supp r : accepted g o E -> lf_ctx (leafE E) = true -> evidence E N x ms -> (0 < N)%nat ->
  (mp || mpel = true -> mode_ok E) -> outcome supp (sample_numbers val us E diff (mkArgs None CNone (Some x) mp mpel 1 ms)) r ->
  (exists e, outcome supp (sample E (mkArgs None CNone (Some x) mp mpel 1 ms)) (Err e)) \/
  exists t t', r = Ok t /\ outcome supp (sample E (mkArgs None CNone (Some x) mp mpel 1 ms)) (Ok t') /\ shape t = shape t' /\
    forall idx, inb (shape t) idx -> get t idx = get (numbers val t') idx.
Proof.
  intros A Hctx He HN Hm Ho. destruct diff; cbn [sample_numbers] in Ho.
  - destruct (C25_evidence_follows_partial V val g o E us N x ms mp mpel 1 supp r A Hctx He HN ltac:(lra)) as (t & t' & -> & O & Es & G & _); auto.
    + intros H. destruct (Hm H) as (md & -> & _). discriminate.
    + right. exists t, t'. split; auto.
  - apply outcome_bind in Ho as [(e & Ho & ->)|(t & Ht & Ho)]; [left; eauto|]. right. apply outcome_ret_inv in Ho. subst r. exists (numbers val t), t. auto.
Qed.
(** One channel: the scopes are the rows above the cut. *)
Lemma recon_evidence {V} (E : einet V) s N x : sized E s -> i_C s = 1%nat -> batch E N x -> complete E N x -> evidence E N x (Some (recon_scopes s)).
Proof.
  intros [SC SF] HC HB HX. split; [exact HB|]. split.
  - intros f Hf. apply in_recon in Hf as (c & h & w & Hc & _ & Hh & Hw & ->). rewrite SF. assert (c = 0%nat) by lia. subst c. rewrite Nat.mul_0_l, Nat.add_0_l. apply RefConv.flat_lt; auto.
  - intros n c f Hn Hc Hf _. apply HX; auto.
Qed.
Lemma observed_recon {V} s (x : tensor (option V)) n c h w : i_C s = 1%nat -> (h < i_H s)%nat -> (w < i_W s)%nat ->
  observed x (Some (recon_scopes s)) n c (h * i_W s + w) = if (h <? half_even (i_W s))%nat then None else entry x n c (h * i_W s + w)%nat.
Proof.
  intros HC Hh Hw. unfold observed. pose proof (in_recon_1 s h w HC Hh Hw) as H. rewrite <- existsb_eqb_In in H.
  destruct (Nat.ltb_spec h (half_even (i_W s))) as [L|L]; [rewrite (proj2 H L); reflexivity|]. destruct (existsb _ _); [|reflexivity]. exfalso. assert (T: (h < half_even (i_W s))%nat) by tauto. lia.
Qed.

(** * Images with one channel *)
(** The pictures have the shape of the data.  The rows from half of the width on show the pixels of the test images, the rows above show values
    in the support of the leaves. *)
Theorem C85_reconstruct : forall V (val : V -> R) us gauss n_bins g o (E : einet V) s diff mp mpel N x (supp : list nat -> V -> Prop) r,
  accepted g o E -> sized E s -> i_C s = 1%nat -> lf_ctx (leafE E) = true -> batch E N x -> complete E N x -> (0 < N)%nat -> n_bins <> 0 ->
  (mp || mpel = true -> mode_ok E) -> (forall key v, supp key v -> lf_supp (leafE E) v = true) ->
  outcome supp (reconstruct val us gauss n_bins s E diff mp mpel x) r ->
  exists t cut, r = Ok t /\ half_of (i_W s) cut /\ shape t = [N; 1; i_H s; i_W s]%nat /\
    forall n h w, (n < N)%nat -> (h < i_H s)%nat -> (w < i_W s)%nat -> exists v, get t [n; 0; h; w]%nat = shown val gauss n_bins v /\ lf_supp (leafE E) v = true /\
      ((cut <= h)%nat -> entry x n 0 (h * i_W s + w) = Some v).
Proof.
  intros V val us gs nb g o E s diff mp mpel N x supp r A HS HC Hctx HB HX HN Hnb Hm Hsu Ho. pose proof HS as [SC SF]. pose proof (accepted_ok g o E A) as HE. pose proof (recon_evidence E s N x HS HC HB HX) as HEv.
  assert (HF: (0 < i_H s * i_W s)%nat) by (rewrite <- SF; apply (eo_F E HE)).
  assert (KEEP: forall r, outcome supp (sample E (mkArgs None CNone (Some x) mp mpel 1 (Some (recon_scopes s)))) r -> _) by
    (intros r0 H0; exact (C11_evidence_kept V g o E N x (Some (recon_scopes s)) mp mpel 1 A Hctx HEv HN ltac:(lra) Hm supp r0 Hsu H0)).
  unfold reconstruct in Ho. apply outcome_bind in Ho as [(e & Ho & ->)|(t & Ht & Ho)].
  { destruct (numbers_of val us g o E diff mp mpel N x _ supp _ A Hctx HEv HN Hm Ho) as [(e' & O)|(t & t' & X & _)]; [|discriminate X]. destruct (KEEP _ O) as (t & X & _). discriminate X. }
  destruct (numbers_of val us g o E diff mp mpel N x _ supp _ A Hctx HEv HN Hm Ht) as [(e' & O)|(t0 & t' & X & O & Es & G)]; [destruct (KEEP _ O) as (t0 & X & _); discriminate X|]. injection X as <-.
  destruct (KEEP _ O) as (t0 & X & S0 & K). injection X as <-. apply outcome_lift in Ho. subst r.
  assert (WS: wshape (shape (unscale gs nb t)) N 1 (i_H s * i_W s)) by (rewrite unscale_shape, Es, S0, <- SF, <- HC, <- SC; apply HB).
  destruct (view_pictures (unscale gs nb t) N 1 (i_H s) (i_W s) ltac:(lia) HF HN WS) as (u & Eu & Su & Gu). rewrite HC, Eu.
  exists u, (half_even (i_W s)). split; [reflexivity|]. split; [apply half_even_of|]. split; [exact Su|]. intros n h w Hn Hh Hw. rewrite Gu by (auto; lia).
  assert (Hf: (h * i_W s + w < i_H s * i_W s)%nat) by (apply RefConv.flat_lt; auto).
  assert (EE: forall v, entry t' n 0 (h * i_W s + w) = Some v -> entry (unscale gs nb t) n 0 (h * i_W s + w) = shown val gs nb v).
  { intros v Hv. rewrite <- (unscale_entry val gs nb t' n 0 _ v Hnb Hv). rewrite unscale_shape in WS. destruct (ix_ravel (shape t) N 1 (i_H s * i_W s) n 0 (h * i_W s + w) WS Hn ltac:(lia) Hf) as (I1 & _ & _).
    unfold entry. rewrite !unscale_shape. cbn [numbers tmap shape]. rewrite <- Es. unfold unscale. destruct gs; cbn [tmap get]; rewrite G by exact I1; reflexivity. }
  specialize (K n 0%nat (h * i_W s + w)%nat Hn ltac:(lia) ltac:(rewrite SF; exact Hf)). rewrite (observed_recon s x n 0 h w HC Hh Hw) in K. destruct (Nat.ltb_spec h (half_even (i_W s))) as [L|L].
  - destruct K as (v & Kv & Sv). exists v. split; [apply EE; auto|]. split; [exact Sv|]. lia.
  - destruct (entry x n 0 (h * i_W s + w)%nat) as [v|] eqn:Ev; [|destruct (HX n 0%nat (h * i_W s + w)%nat Hn ltac:(lia) ltac:(rewrite SF; exact Hf) Ev)].
    exists v. split; [apply EE; auto|]. split; [|auto]. apply (proj2 HB n 0%nat (h * i_W s + w)%nat); auto; [lia|rewrite SF; exact Hf].
Qed.
Print Assumptions C85_reconstruct.

(** * The law of the reconstructions *)
Definition same (a b : num) : bool := match a, b with Fin p, Fin q => if Req_EM_T p q then true else false | _, _ => false end.
(** Picture [n] shows the values [xs n h w]. *)
Definition pictures_are (s : ishape) (N : nat) (gauss : bool) (n_bins : R) (xs : nat -> nat -> nat -> nat) (t : tensor num) : bool :=
  forallb (fun n => forallb (fun h => forallb (fun w => same (get t [n; 0; h; w]%nat) (shown INR gauss n_bins (xs n h w))) (seq 0 (i_W s))) (seq 0 (i_H s))) (seq 0 N).
Lemma forallb_ext_in {A} (f h : A -> bool) l : (forall a, In a l -> f a = h a) -> forallb f l = forallb h l.
Proof. induction l as [|a l IH]; intros H; [reflexivity|]. cbn [forallb]. rewrite H by (left; auto). rewrite IH; auto. intros b Hb. apply H. right; auto. Qed.
Lemma forallb_flat H W (P : nat -> bool) : (0 < W)%nat -> forallb P (seq 0 (H * W)) = forallb (fun h => forallb (fun w => P (h * W + w)%nat) (seq 0 W)) (seq 0 H).
Proof.
  intros HW. apply eq_iff_eq_true. rewrite !forallb_forall. split; intros Q.
  - intros h Hh. apply forallb_forall. intros w Hw. apply Q. apply in_seq in Hh, Hw. apply in_seq. pose proof (RefConv.flat_lt h w H W ltac:(lia) ltac:(lia)). lia.
  - intros f Hf. apply in_seq in Hf. pose proof (Nat.div_mod f W ltac:(lia)) as D. pose proof (Nat.mod_upper_bound f W ltac:(lia)). replace f with (f / W * W + f mod W)%nat by lia.
    assert (f / W < H)%nat by (apply Nat.div_lt_upper_bound; lia). specialize (Q (f / W)%nat ltac:(apply in_seq; lia)). rewrite forallb_forall in Q. apply Q. apply in_seq. lia.
Qed.
Lemma shown_same gs nb a b : nb <> 0 -> same (shown INR gs nb a) (shown INR gs nb b) = (a =? b)%nat.
Proof.
  intros Hb. unfold same, shown. destruct (Nat.eqb_spec a b) as [->|Hne]; [destruct (Req_EM_T _ _); auto; congruence|].
  destruct (Req_EM_T _ _) as [Q|]; auto. exfalso. apply Hne. apply INR_eq. destruct gs; [exact Q|]. apply (Rmult_eq_compat_r nb) in Q. unfold Rdiv in Q. rewrite !Rmult_assoc, !Rinv_l in Q by auto. lra.
Qed.
Section Law.
Context (us : nat -> list nat -> R) (gs : bool) (nb : R) (g : config) (o : oracle nat) (E : einet nat) (s : ishape) (B N : nat) (x : tensor (option nat)).
Hypothesis A : accepted g o E.
Hypothesis HS : sized E s.
Hypothesis HC : i_C s = 1%nat.
Hypothesis Hctx : lf_ctx (leafE E) = true.
Hypothesis HB : batch E N x.
Hypothesis HX : complete E N x.
Hypothesis HN : (0 < N)%nat.
Hypothesis Hnb : nb <> 0.
Hypothesis HD : discrete_leaf B (leafE E).
Lemma recon_pr xs : Pr B (leafE E) (reconstruct INR us gs nb s E false false false x) (pictures_are s N gs nb xs) =
  Pr B (leafE E) (sample E (mkArgs None CNone (Some x) false false 1 (Some (recon_scopes s)))) (rows_are N (e_C E) (e_F E) (fun n _ f => xs n (f / i_W s)%nat (f mod i_W s)%nat)).
Proof.
  pose proof HS as [SC SF]. pose proof (accepted_ok g o E A) as HE. pose proof (recon_evidence E s N x HS HC HB HX) as HEv. assert (HF: (0 < i_H s * i_W s)%nat) by (rewrite <- SF; apply (eo_F E HE)).
  unfold Pr, reconstruct. cbn [sample_numbers]. assert (HEL: leaf_expectation (EL_discrete B (leaf_draw (leafE E)))) by (apply EL_discrete_ok; intros key; apply (leaf_draw_sum E HE B HD)).
  rewrite !expect_bind by auto. apply expect_ext_outcome; auto. intros t Ht. cbn [expect].
  set (a := mkArgs None CNone (Some x) false false 1 (Some (recon_scopes s))) in *. assert (EN: num_samples a = N) by (cbn; apply (batch_size E); apply HB).
  destruct (sample_evidence_out E HE a x eq_refl) as [O _]; try rewrite EN; auto; try (cbn; lra); try (cbn; discriminate).
  { unfold check_args. cbn. destruct (e_K E =? 1)%nat; reflexivity. } { apply evidence_input; auto. }
  destruct (O _ _ Ht) as (t0 & X & St & Gt). injection X as <-. rewrite EN in Gt.
  assert (SO: forall n c f, (n < N)%nat -> (c < e_C E)%nat -> (f < e_F E)%nat -> exists v, entry t n c f = Some v).
  { intros n c f Hn Hc Hf. specialize (Gt n c f Hn Hc Hf). destruct (row x (a_ms a) n c f) as [v|]; eauto. destruct Gt as (w & Gw & _). eauto. }
  assert (WS: wshape (shape (unscale gs nb (numbers INR t))) N 1 (i_H s * i_W s)) by (rewrite unscale_shape; cbn [numbers tmap shape]; rewrite St, <- SF, <- HC, <- SC; apply HB).
  destruct (view_pictures (unscale gs nb (numbers INR t)) N 1 (i_H s) (i_W s) ltac:(lia) HF HN WS) as (u & Eu & Su & Gu). rewrite HC, Eu. cbn [lift expect].
  match goal with |- (if ?p then _ else _) = (if ?q then _ else _) => assert (PQ: p = q); [|rewrite PQ; reflexivity] end.
  unfold pictures_are, rows_are. apply forallb_ext_in. intros n Hn. apply in_seq in Hn. rewrite SC, HC, SF. cbn [seq forallb]. rewrite andb_true_r, forallb_flat by lia.
  apply forallb_ext_in. intros h Hh. apply in_seq in Hh. apply forallb_ext_in. intros w Hw. apply in_seq in Hw. rewrite Gu by lia. rewrite RefConv.flat_div, RefConv.flat_mod by lia.
  destruct (SO n 0%nat (h * i_W s + w)%nat ltac:(lia) ltac:(lia)) as (v & Ev). { rewrite SF. apply RefConv.flat_lt; lia. }
  rewrite (unscale_entry INR gs nb t n 0 _ v Hnb Ev), Ev. apply shown_same; auto.
Qed.
End Law.
(** For consistent configurations with one class, the rows above the cut are drawn from the conditional distribution given the rows below: the
    probability of a picture is its likelihood over the marginal likelihood of the rows that are kept. *)
Theorem C85_law_partial : forall us gauss n_bins g o (E : einet nat) s B N x xs,
  accepted g o E -> consistent g -> discrete_leaf B (leafE E) -> lf_ctx (leafE E) = true -> e_K E = 1%nat ->
  sized E s -> i_C s = 1%nat -> batch E N x -> complete E N x -> (0 < N)%nat -> n_bins <> 0 ->
  (forall n h w, (n < N)%nat -> (h < i_H s)%nat -> (w < i_W s)%nat -> (xs n h w < B)%nat) ->
  exists cut S, half_of (i_W s) cut /\ (forall h w, (h < i_H s)%nat -> (w < i_W s)%nat -> (In (h * i_W s + w)%nat S <-> (h < cut)%nat)) /\
    ((forall n h w, (n < N)%nat -> (cut <= h < i_H s)%nat -> (w < i_W s)%nat -> entry x n 0 (h * i_W s + w) = Some (xs n h w)) ->
     Pr B (leafE E) (reconstruct INR us gauss n_bins s E false false false x) (pictures_are s N gauss n_bins xs) =
     rprod N (fun n => lik E (one_row 1 (i_H s * i_W s) (fun _ f => xs n (f / i_W s)%nat (f mod i_W s)%nat)) None 0 0 / lik E x (Some S) n 0)) /\
    ((exists n h w, (n < N)%nat /\ (cut <= h < i_H s)%nat /\ (w < i_W s)%nat /\ entry x n 0 (h * i_W s + w) <> Some (xs n h w)) ->
     Pr B (leafE E) (reconstruct INR us gauss n_bins s E false false false x) (pictures_are s N gauss n_bins xs) = 0).
Proof.
  intros us gs nb g o E s B N x xs A Hco HD Hctx HK HS HC HB HX HN Hnb Hxs. pose proof HS as [SC SF]. pose proof (accepted_ok g o E A) as HE. pose proof (recon_evidence E s N x HS HC HB HX) as HEv. assert (HF: (0 < i_H s * i_W s)%nat) by (rewrite <- SF; apply (eo_F E HE)).
  exists (half_even (i_W s)), (recon_scopes s). split; [apply half_even_of|]. split; [intros h w Hh Hw; apply in_recon_1; auto|].
  rewrite (recon_pr us gs nb g o E s B N x A HS HC Hctx HB HX HN Hnb HD).
  assert (DIV: forall f, (f < i_H s * i_W s)%nat -> (f / i_W s < i_H s /\ f mod i_W s < i_W s /\ f = f / i_W s * i_W s + f mod i_W s)%nat).
  { intros f Hf. pose proof (Nat.div_mod f (i_W s) ltac:(lia)). pose proof (Nat.mod_upper_bound f (i_W s) ltac:(lia)). split; [apply Nat.div_lt_upper_bound; lia|lia]. }
  assert (RNG: forall n c f, (n < N)%nat -> (c < e_C E)%nat -> (f < e_F E)%nat -> (xs n (f / i_W s) (f mod i_W s) < B)%nat).
  { intros n c f Hn _ Hf. rewrite SF in Hf. destruct (DIV f Hf) as (D1 & D2 & _). apply Hxs; auto. }
  split.
  - intros HA. rewrite (C09_conditional_partial g o E B N x (Some (recon_scopes s)) (fun n _ f => xs n (f / i_W s)%nat (f mod i_W s)%nat) A Hco HD Hctx HK HEv HN RNG).
    + rewrite SC, HC, SF. reflexivity.
    + intros n c f v Hn Hc Hf Ho. rewrite SF in Hf. destruct (DIV f Hf) as (D1 & D2 & D3). assert (c = 0%nat) by lia. subst c. rewrite D3, (observed_recon s x n 0 _ _ HC D1 D2) in Ho.
      destruct (Nat.ltb_spec (f / i_W s) (half_even (i_W s))) as [L|L]; [discriminate Ho|]. rewrite (HA n (f / i_W s)%nat (f mod i_W s)%nat Hn ltac:(lia) D2) in Ho. congruence.
  - intros (n & h & w & Hn & Hh & Hw & Hne). apply (C09_disagreement_impossible_partial g o E B N x (Some (recon_scopes s)) (fun n _ f => xs n (f / i_W s)%nat (f mod i_W s)%nat) A Hco HD Hctx HEv HN RNG).
    assert (Hf: (h * i_W s + w < e_F E)%nat) by (rewrite SF; apply RefConv.flat_lt; lia).
    destruct (entry x n 0 (h * i_W s + w)%nat) as [v|] eqn:Ev; [|destruct (HX n 0%nat _ Hn ltac:(lia) Hf Ev)].
    exists n, 0%nat, (h * i_W s + w)%nat, v. split; [auto|]. split; [lia|]. split; [exact Hf|]. rewrite (observed_recon s x n 0 h w HC ltac:(lia) Hw). destruct (Nat.ltb_spec h (half_even (i_W s))) as [L|L]; [lia|].
    split; [exact Ev|]. rewrite RefConv.flat_div, RefConv.flat_mod by lia. congruence.
Qed.
Print Assumptions C85_law_partial.

(** * Leaves with densities *)
(** A test of the pixels as a test of the entries *)
Definition pixel_test {V} (val : V -> R) (gauss : bool) (n_bins : R) (s : ishape) (q : nat -> nat -> nat -> nat -> num -> R) (n c f : nat) (v : V) : R :=
  q n c (f / i_W s)%nat (f mod i_W s)%nat (shown val gauss n_bins v).
Lemma tests_of_pixels {V} (val : V -> R) gs nb (E : einet V) s N q (t : tensor (option V)) (u : tensor num) : sized E s -> (0 < i_H s * i_W s)%nat ->
  (forall n c h w, (n < N)%nat -> (c < i_C s)%nat -> (h < i_H s)%nat -> (w < i_W s)%nat -> exists v, entry t n c (h * i_W s + w)%nat = Some v /\ get u [n; c; h; w] = shown val gs nb v) ->
  pixel_tests s N q u = batch_tests E N (pixel_test val gs nb s q) t.
Proof.
  intros [SC SF] HF G. unfold pixel_tests, batch_tests, tests. apply rprod_ext. intros n Hn. rewrite SC. apply rprod_ext. intros c Hc. rewrite SF, rprod_flat.
  apply rprod_ext. intros h Hh. apply rprod_ext. intros w Hw. destruct (G n c h w Hn Hc Hh Hw) as (v & -> & ->). unfold pixel_test. rewrite RefConv.flat_div, RefConv.flat_mod by auto. reflexivity.
Qed.
(** For consistent configurations with one class and leaves of any kind: the expected value of a product of tests of the pixels is the integral of
    the likelihood times the tests over the rows above the cut, divided by the marginal likelihood of the rows that are kept. *)
Theorem C85_density_partial : forall V (val : V -> R) us gauss n_bins g o (E : einet V) s Int EL N x q,
  accepted g o E -> consistent g -> lf_ctx (leafE E) = true -> density_leaf Int (leafE E) -> leaf_expectation EL -> e_K E = 1%nat ->
  sized E s -> i_C s = 1%nat -> batch E N x -> complete E N x -> (0 < N)%nat -> n_bins <> 0 ->
  (forall n c h w p, 0 <= q n c h w p) ->
  (forall n h w, (n < N)%nat -> (h < i_H s)%nat -> (w < i_W s)%nat -> leaf_law Int (leafE E) EL 0 (h * i_W s + w) (fun v => q n 0%nat h w (shown val gauss n_bins v))) ->
  exists cut S, half_of (i_W s) cut /\ (forall h w, (h < i_H s)%nat -> (w < i_W s)%nat -> (In (h * i_W s + w)%nat S <-> (h < cut)%nat)) /\
    forall ps, (forall n, (n < N)%nat -> missing 1 (i_H s * i_W s) (observed x (Some S) n) (ps n)) ->
    exists I, (forall n, (n < N)%nat ->
        integrates Int (fun z => lik E (row_tensor 1 (i_H s * i_W s) z) None 0 0 * tests 1 (i_H s * i_W s) (pixel_test val gauss n_bins s q n) z) (ps n) (observed x (Some S) n) (I n)) /\
      expect EL (reconstruct val us gauss n_bins s E false false false x) (pixel_tests s N q) = rprod N (fun n => I n / lik E x (Some S) n 0).
Proof.
  intros V val us gs nb g o E s Int EL N x q A Hco Hctx HD HEL HK HS HC HB HX HN Hnb Hq HL. pose proof HS as [SC SF]. pose proof (accepted_ok g o E A) as HE. pose proof (recon_evidence E s N x HS HC HB HX) as HEv.
  assert (HF: (0 < i_H s * i_W s)%nat) by (rewrite <- SF; apply (eo_F E HE)).
  exists (half_even (i_W s)), (recon_scopes s). split; [apply half_even_of|]. split; [intros h w Hh Hw; apply in_recon_1; auto|]. intros ps Hps.
  assert (SC1: e_C E = 1%nat) by congruence. rewrite <- SF in Hps |- *.
  destruct (C53_conditional_partial V g o E Int EL N x (Some (recon_scopes s)) (pixel_test val gs nb s q) ps A Hco Hctx HD HEL HK HEv HN) as (I & I1 & I2).
  - rewrite SC1. exact Hps.
  - intros n c f v. apply Hq.
  - intros n c f Hn Hin. apply (Hps n Hn) in Hin as (Hc & Hf & _). assert (c = 0%nat) by lia. subst c. rewrite SF in Hf.
    pose proof (Nat.div_mod f (i_W s) ltac:(lia)) as D. pose proof (Nat.mod_upper_bound f (i_W s) ltac:(lia)) as M. assert (D1: (f / i_W s < i_H s)%nat) by (apply Nat.div_lt_upper_bound; lia).
    specialize (HL n (f / i_W s)%nat (f mod i_W s)%nat Hn D1 M). replace (f / i_W s * i_W s + f mod i_W s)%nat with f in HL by lia. exact HL.
  - exists I. split; [rewrite SC1 in I1; exact I1|]. etransitivity; [|exact I2].
    unfold reconstruct. cbn [sample_numbers]. rewrite !expect_bind by auto. apply expect_ext_outcome; auto. intros t Ht. cbn [expect].
    set (a := mkArgs None CNone (Some x) false false 1 (Some (recon_scopes s))) in *. assert (EN: num_samples a = N) by (cbn; apply (batch_size E); apply HB).
    destruct (sample_evidence_out E HE a x eq_refl) as [O _]; try rewrite EN; auto; try (cbn; lra); try (cbn; discriminate).
    { unfold check_args. cbn. destruct (e_K E =? 1)%nat; reflexivity. } { apply evidence_input; auto. }
    destruct (O _ _ Ht) as (t0 & X & St & Gt). injection X as <-. rewrite EN in Gt.
    assert (WS: wshape (shape (unscale gs nb (numbers val t))) N 1 (i_H s * i_W s)) by (rewrite unscale_shape; cbn [numbers tmap shape]; rewrite St, <- SF, <- SC1; apply HB).
    destruct (view_pictures (unscale gs nb (numbers val t)) N 1 (i_H s) (i_W s) ltac:(lia) ltac:(lia) HN WS) as (u & Eu & Su & Gu). rewrite HC, Eu. cbn [lift expect].
    apply tests_of_pixels; [split; auto|lia|]. rewrite HC. intros n c h w Hn Hc Hh Hw. assert (Hf: (h * i_W s + w < e_F E)%nat) by (rewrite SF; apply RefConv.flat_lt; lia).
    assert (SO: exists v, entry t n c (h * i_W s + w) = Some v).
    { specialize (Gt n c (h * i_W s + w)%nat Hn ltac:(lia) Hf). destruct (row x (a_ms a) n c (h * i_W s + w)%nat) as [v|]; eauto. destruct Gt as (w' & Gw & _). eauto. }
    destruct SO as (v & Ev). exists v. split; [exact Ev|]. rewrite Gu by lia. apply (unscale_entry val gs nb t n c _ v Hnb Ev).
Qed.
Print Assumptions C85_density_partial.

(** * What is not reconstructed *)
Lemma forward_bad_scope {V} (E : einet V) N x S f : einet_ok E -> batch E N x -> In f S -> (e_F E <= f)%nat -> forward_full E x (Some S) = Err IndexErr.
Proof.
  intros HE [WS HSu] Hin Hf. unfold forward_full. destruct (prepare_ok E HE N x WS) as (y & -> & Sy & Gy). cbn [bind].
  assert (D: data_ok (leaf_of (e_leaf E)) N y None).
  { split; [rewrite Sy, (eo_lC E HE), (eo_lF E HE); reflexivity|]. split; [|exact I]. intros n c q v Hn Hc Hq Hv. rewrite (eo_lC E HE) in Hc. rewrite (eo_lF E HE) in Hq. rewrite Gy in Hv by auto. apply (HSu n c q v); auto. }
  destruct (base_forward_rep (leaf_of (e_leaf E)) (eo_leaf E HE) N y None D) as (t & Et & St & _).
  unfold leaf_forward. unfold base_forward in *. destruct (dist_forward (leaf_of (e_leaf E)) _) as [z|]; [|discriminate Et]. cbn [bind] in *.
  match goal with |- context [bind (if ?b then ?p else ?q) _] => destruct (if b then p else q) as [z2|]; [|discriminate Et] end. cbn [bind] in *.
  unfold marginalize_input in *. injection Et as <-. cbn [shape] in St. unfold size. rewrite St. cbn [nth].
  assert (Q: forallb (fun f => f <? lf_F (leaf_of (e_leaf E)))%nat S = false).
  { apply not_true_is_false. intros Q. rewrite forallb_forall in Q. specialize (Q f Hin). apply Nat.ltb_lt in Q. rewrite (eo_lF E HE) in Q. lia. }
  rewrite Q. reflexivity.
Qed.
(** With several channels the scopes count the entries of all channels, but a scope of the model is a pixel: every call raises IndexError. *)
Theorem C85_channels_refuted : forall V (val : V -> R) us gauss n_bins g o (E : einet V) s diff mp mpel N x,
  accepted g o E -> sized E s -> (1 < i_C s)%nat -> (1 < i_W s)%nat -> batch E N x -> reconstruct val us gauss n_bins s E diff mp mpel x = Fail IndexErr.
Proof.
  intros V val us gs nb g o E s diff mp mpel N x A [SC SF] HC HW HB. pose proof (accepted_ok g o E A) as HE.
  assert (HH: (0 < i_H s)%nat) by (pose proof (eo_F E HE); rewrite SF in *; nia).
  assert (BAD: In (i_H s * i_W s)%nat (recon_scopes s)).
  { apply in_recon. exists 1%nat, 0%nat, 0%nat. repeat split; try lia. destruct (half_even_of (i_W s)) as [Q|[_ Q]]; lia. }
  assert (EC: ev_caches E (mkArgs None CNone (Some x) mp mpel 1 (Some (recon_scopes s))) = Err IndexErr).
  { unfold ev_caches. cbn [a_ev a_ms]. rewrite (forward_bad_scope E N x _ _ HE HB BAD ltac:(lia)). reflexivity. }
  assert (CK: check_args E (mkArgs None CNone (Some x) mp mpel 1 (Some (recon_scopes s))) = Ok tt) by (unfold check_args; cbn; destruct (e_K E =? 1)%nat; reflexivity).
  unfold reconstruct, sample_numbers. destruct diff.
  - unfold dsample, dsample_ctx. rewrite CK. cbn [bind]. rewrite EC. reflexivity.
  - unfold sample, sample_ctx. rewrite CK. cbn [lift mbind]. rewrite EC. reflexivity.
Qed.
Print Assumptions C85_channels_refuted.
(** The data sets that are not images have width 1 (data.py:83-112): round(1 / 2) is 0, no scope is marginalized, and the pictures are the test rows. *)
Theorem C85_tabular_refuted : forall V (val : V -> R) us gauss n_bins g o (E : einet V) s diff mp mpel N x (supp : list nat -> V -> Prop) r,
  accepted g o E -> sized E s -> i_C s = 1%nat -> i_W s = 1%nat -> lf_ctx (leafE E) = true -> batch E N x -> complete E N x -> (0 < N)%nat -> n_bins <> 0 ->
  (mp || mpel = true -> mode_ok E) -> (forall key v, supp key v -> lf_supp (leafE E) v = true) ->
  outcome supp (reconstruct val us gauss n_bins s E diff mp mpel x) r ->
  exists t, r = Ok t /\ forall n h, (n < N)%nat -> (h < i_H s)%nat -> exists v, entry x n 0 h = Some v /\ get t [n; 0; h; 0]%nat = shown val gauss n_bins v.
Proof.
  intros V val us gs nb g o E s diff mp mpel N x supp r A HS HC HW Hctx HB HX HN Hnb Hm Hsu Ho.
  destruct (C85_reconstruct V val us gs nb g o E s diff mp mpel N x supp r A HS HC Hctx HB HX HN Hnb Hm Hsu Ho) as (t & cut & -> & HF & _ & G). exists t. split; [reflexivity|]. intros n h Hn Hh.
  destruct (G n h 0%nat Hn Hh ltac:(lia)) as (v & G1 & _ & G3). exists v. rewrite HW, Nat.mul_1_r, Nat.add_0_r in G3. split; [|exact G1]. apply G3.
  assert (cut = 0%nat); [|lia]. apply (half_unique (i_W s)); auto. rewrite HW. right. split; [reflexivity|lia].
Qed.
Print Assumptions C85_tabular_refuted.

(** * The most probable explanation *)
(** model.mpe with the same evidence gives one picture per image, whatever is drawn. *)
Theorem C85_mpe : forall V (val : V -> R) us gauss n_bins g o (E : einet V) s diff N x, accepted g o E -> sized E s -> i_C s = 1%nat -> lf_ctx (leafE E) = true ->
  batch E N x -> complete E N x -> (0 < N)%nat -> n_bins <> 0 -> mode_ok E ->
  exists t cut, reconstruct val us gauss n_bins s E diff true false x = Ret t /\ half_of (i_W s) cut /\ shape t = [N; 1; i_H s; i_W s]%nat /\
    forall n h w, (n < N)%nat -> (h < i_H s)%nat -> (w < i_W s)%nat ->
      if (cut <=? h)%nat then exists v, entry x n 0 (h * i_W s + w) = Some v /\ get t [n; 0; h; w]%nat = shown val gauss n_bins v
      else exists md l q, lf_mode (leafE E) = Some md /\ (l < e_L E)%nat /\ (q < e_R E)%nat /\ get t [n; 0; h; w]%nat = shown val gauss n_bins (md [0; h * i_W s + w; l; q]%nat).
Proof.
  intros V val us gs nb g o E s diff N x A HS HC Hctx HB HX HN Hnb Hm. pose proof HS as [SC SF]. pose proof (accepted_ok g o E A) as HE. pose proof (recon_evidence E s N x HS HC HB HX) as HEv.
  assert (HF: (0 < i_H s * i_W s)%nat) by (rewrite <- SF; apply (eo_F E HE)).
  set (a := mkArgs None CNone (Some x) true false 1 (Some (recon_scopes s))) in *. assert (EN: num_samples a = N) by (cbn; apply (batch_size E); apply HB).
  assert (HMD: lf_mode (leafE E) <> None) by (destruct Hm as (md & -> & _); discriminate).
  destruct (sample_evidence_out E HE a x eq_refl) as [O OM]; try rewrite EN; auto; try (cbn; lra).
  { unfold check_args. cbn. destruct (e_K E =? 1)%nat; reflexivity. } { apply evidence_input; auto. }
  destruct (OM eq_refl) as (t' & Et'). rewrite Et' in O. destruct (O (fun _ _ => True) (Ok t') ltac:(constructor)) as (t0 & X & S0 & K). injection X as <-. rewrite EN in K.
  assert (NU: exists t, sample_numbers val us E diff a = Ret t /\ shape t = shape t' /\ forall idx, inb (shape t) idx -> get t idx = get (numbers val t') idx).
  { destruct diff; cbn [sample_numbers]; [|rewrite Et'; cbn [mbind]; exists (numbers val t'); auto].
    destruct (dsample_has val us E a (fun _ _ => True) (lf_zero (leafE E)) (fun _ => I)) as (r & Hr).
    destruct (C25_evidence_follows_partial V val g o E us N x (Some (recon_scopes s)) true false 1 _ r A Hctx HEv HN ltac:(lra) ltac:(auto) Hr) as (t & t2 & -> & O2 & Es & G & F). destruct (F eq_refl) as [F1 F2].
    fold a in F1, F2. exists t. split; [exact F1|]. assert (t2 = t') by congruence. subst t2. auto. }
  destruct NU as (t & Et & Es & G). unfold reconstruct. fold a. rewrite Et. cbn [mbind].
  assert (WS: wshape (shape (unscale gs nb t)) N 1 (i_H s * i_W s)) by (rewrite unscale_shape, Es, S0, <- SF, <- HC, <- SC; apply HB).
  destruct (view_pictures (unscale gs nb t) N 1 (i_H s) (i_W s) ltac:(lia) HF HN WS) as (u & Eu & Su & Gu). rewrite HC, Eu. cbn [lift].
  exists u, (half_even (i_W s)). split; [reflexivity|]. split; [apply half_even_of|]. split; [exact Su|]. intros n h w Hn Hh Hw. rewrite Gu by (auto; lia).
  assert (Hf: (h * i_W s + w < i_H s * i_W s)%nat) by (apply RefConv.flat_lt; auto).
  assert (EE: forall v, entry t' n 0 (h * i_W s + w) = Some v -> entry (unscale gs nb t) n 0 (h * i_W s + w) = shown val gs nb v).
  { intros v Hv. rewrite <- (unscale_entry val gs nb t' n 0 _ v Hnb Hv). rewrite unscale_shape in WS. destruct (ix_ravel (shape t) N 1 (i_H s * i_W s) n 0 (h * i_W s + w) WS Hn ltac:(lia) Hf) as (I1 & _ & _).
    unfold entry. rewrite !unscale_shape. cbn [numbers tmap shape]. rewrite <- Es. unfold unscale. destruct gs; cbn [tmap get]; rewrite G by exact I1; reflexivity. }
  specialize (K n 0%nat (h * i_W s + w)%nat Hn ltac:(lia) ltac:(rewrite SF; exact Hf)). cbn [a a_ms] in K. rewrite <- observed_row, (observed_recon s x n 0 h w HC Hh Hw) in K.
  destruct (Nat.leb_spec (half_even (i_W s)) h) as [L|L]; destruct (Nat.ltb_spec h (half_even (i_W s))) as [L'|L']; try lia.
  - destruct (entry x n 0 (h * i_W s + w)%nat) as [v|] eqn:Ev; [|destruct (HX n 0%nat (h * i_W s + w)%nat Hn ltac:(lia) ltac:(rewrite SF; exact Hf) Ev)].
    exists v. split; [auto|]. apply EE. exact K.
  - destruct K as (v & Kv & l & q & Hl & Hq & md & Em & ->). exists md, l, q. split; [exact Em|]. split; [exact Hl|]. split; [exact Hq|]. apply EE. exact Kv.
Qed.
Print Assumptions C85_mpe.

(** Without evidence there is one picture; its pixels are modes of leaves and, unlike those of the other pictures, not divided by the number of bins. *)
Theorem C85_mpe_image : forall V (val : V -> R) us g o (E : einet V) s diff, accepted g o E -> sized E s -> lf_ctx (leafE E) = true -> lf_mode (leafE E) <> None ->
  exists t, mpe_image val us s E diff = Ret t /\ shape t = [1; i_C s; i_H s; i_W s]%nat /\
    forall c h w, (c < i_C s)%nat -> (h < i_H s)%nat -> (w < i_W s)%nat ->
      exists md l q, lf_mode (leafE E) = Some md /\ (l < e_L E)%nat /\ (q < e_R E)%nat /\ get t [0; c; h; w]%nat = Fin (val (md [c; h * i_W s + w; l; q]%nat)).
Proof.
  intros V val us g o E s diff A [SC SF] Hctx HMD. pose proof (accepted_ok g o E A) as HE.
  assert (HF: (0 < i_H s * i_W s)%nat) by (rewrite <- SF; apply (eo_F E HE)). assert (HC: (0 < i_C s)%nat) by (rewrite <- SC; apply (eo_C E HE)).
  set (a := mkArgs (V := V) None CNone None true false 1 None). assert (CK: check_args E a = Ok tt) by (unfold check_args; cbn; destruct (e_K E =? 1)%nat; reflexivity).
  destruct (sample_free_out E HE a CK I eq_refl) as [O OM]; auto; try (cbn; lra); try (cbn; lia).
  destruct (OM eq_refl) as (t' & Et'). rewrite Et' in O. destruct (O (fun _ _ => True) (Ok t') ltac:(constructor)) as (t0 & X & S0 & K). injection X as <-. cbn [num_samples a a_ev a_n] in S0, K. rewrite SC, SF in S0, K.
  assert (NU: exists t, sample_numbers val us E diff a = Ret t /\ shape t = shape t' /\ forall idx, inb (shape t) idx -> get t idx = get (numbers val t') idx).
  { destruct diff; cbn [sample_numbers]; [|rewrite Et'; cbn [mbind]; exists (numbers val t'); auto].
    destruct (dsample_has val us E a (fun _ _ => True) (lf_zero (leafE E)) (fun _ => I)) as (r & Hr).
    destruct (dsample_follows val E HE (accepted_mixing g o E A) (fun _ _ => True) us a r) as (t & t2 & -> & Ot & [Hs Hg] & Hmpe); auto; try (cbn; lia); try (cbn; lra); try discriminate.
    destruct (Hmpe eq_refl) as [F1 F2]. exists t. split; [exact F1|]. assert (t2 = t') by congruence. subst t2. auto. }
  destruct NU as (t & Et & Es & G). unfold mpe_image. fold a. rewrite Et. cbn [mbind].
  destruct (view_images t 1 (i_C s) (i_H s) (i_W s) HC HF ltac:(left; rewrite Es; exact S0) ltac:(lia)) as (u & Eu & Su & Gu). rewrite Eu. cbn [lift]. exists u. split; [reflexivity|]. split; [exact Su|].
  intros c h w Hc Hh Hw. assert (Hf: (h * i_W s + w < i_H s * i_W s)%nat) by (apply RefConv.flat_lt; auto). destruct (K 0%nat c (h * i_W s + w)%nat ltac:(lia) Hc Hf) as (v & Kv & l & q & Hl & Hq & md & Em & ->).
  exists md, l, q. split; [exact Em|]. split; [exact Hl|]. split; [exact Hq|]. rewrite Gu by (auto; lia). rewrite Es, S0. cbn [length Nat.eqb]. rewrite G by (rewrite Es, S0; cbn [inb]; auto). cbn [numbers tmap get]. rewrite Kv. reflexivity.
Qed.
Print Assumptions C85_mpe_image.

(** * Samples *)
(** Picture [n] shows the values [xs n c h w] in all channels. *)
Definition samples_are (s : ishape) (N : nat) (gauss : bool) (n_bins : R) (xs : nat -> nat -> nat -> nat -> nat) (t : tensor num) : bool :=
  forallb (fun n => forallb (fun c => forallb (fun h => forallb (fun w => same (get t [n; c; h; w]%nat) (shown INR gauss n_bins (xs n c h w))) (seq 0 (i_W s))) (seq 0 (i_H s))) (seq 0 (i_C s))) (seq 0 N).
(** For consistent configurations with one class the pictures are independent draws from the distribution of the model. *)
Theorem C85_samples_partial : forall us gauss n_bins g o (E : einet nat) s B N xs,
  accepted g o E -> consistent g -> discrete_leaf B (leafE E) -> lf_ctx (leafE E) = true -> e_K E = 1%nat -> sized E s -> (0 < N)%nat -> n_bins <> 0 ->
  (forall n c h w, (n < N)%nat -> (c < i_C s)%nat -> (h < i_H s)%nat -> (w < i_W s)%nat -> (xs n c h w < B)%nat) ->
  Pr B (leafE E) (sample_images INR us gauss n_bins s E false false N) (samples_are s N gauss n_bins xs) =
  rprod N (fun n => lik E (one_row (i_C s) (i_H s * i_W s) (fun c f => xs n c (f / i_W s)%nat (f mod i_W s)%nat)) None 0 0).
Proof.
  intros us gs nb g o E s B N xs A Hco HD Hctx HK [SC SF] HN Hnb Hxs. pose proof (accepted_ok g o E A) as HE.
  assert (HF: (0 < i_H s * i_W s)%nat) by (rewrite <- SF; apply (eo_F E HE)). assert (HC: (0 < i_C s)%nat) by (rewrite <- SC; apply (eo_C E HE)).
  rewrite <- SC, <- SF. rewrite <- (C07_free_samples_partial g o E B N (fun n c f => xs n c (f / i_W s)%nat (f mod i_W s)%nat) A Hco HD Hctx HK HN).
  - unfold Pr, sample_images. cbn [sample_numbers]. assert (HEL: leaf_expectation (EL_discrete B (leaf_draw (leafE E)))) by (apply EL_discrete_ok; intros key; apply (leaf_draw_sum E HE B HD)).
    rewrite !expect_bind by auto. apply expect_ext_outcome; auto. intros t Ht. cbn [expect].
    set (a := mkArgs (Some N) CNone None false false 1 None) in *.
    destruct (sample_free_out E HE a) as [O _]; auto; try (cbn; lra); try (cbn; discriminate).
    { unfold check_args. cbn. destruct (e_K E =? 1)%nat; reflexivity. }
    destruct (O _ _ Ht) as (t0 & X & St & Gt). injection X as <-. cbn [num_samples a a_ev a_n] in St, Gt. rewrite SC, SF in St, Gt.
    destruct (view_images (numbers INR t) N (i_C s) (i_H s) (i_W s) HC HF) as (u & Eu & Su & Gu); auto. rewrite Eu. cbn [bind lift expect].
    match goal with |- (if ?p then _ else _) = (if ?q then _ else _) => assert (PQ: p = q); [|rewrite PQ; reflexivity] end.
    unfold samples_are, rows_are. apply forallb_ext_in. intros n Hn. apply in_seq in Hn. rewrite SC, SF. apply forallb_ext_in. intros c Hc. apply in_seq in Hc. rewrite forallb_flat by lia.
    apply forallb_ext_in. intros h Hh. apply in_seq in Hh. apply forallb_ext_in. intros w Hw. apply in_seq in Hw. rewrite RefConv.flat_div, RefConv.flat_mod by lia.
    destruct (Gt n c (h * i_W s + w)%nat ltac:(lia) ltac:(lia)) as (v & Ev & _). { apply RefConv.flat_lt; lia. }
    assert (SH: get (unscale gs nb u) [n; c; h; w] = shown INR gs nb v).
    { assert (U: get u [n; c; h; w] = Fin (INR v)) by (rewrite Gu by lia; cbn [numbers tmap shape]; rewrite St; cbn [length Nat.eqb]; cbn [numbers tmap get]; rewrite Ev; reflexivity).
      unfold unscale, shown. destruct gs; [exact U|]. cbn [tmap get]. rewrite U. cbn [ndiv]. destruct (Req_EM_T nb 0); [lra|reflexivity]. }
    rewrite SH. unfold entry. rewrite St. cbn [ix]. rewrite Ev. apply shown_same; auto.
  - intros n c f Hn Hc Hf. rewrite SC in Hc. rewrite SF in Hf. apply Hxs; auto; [apply Nat.div_lt_upper_bound; lia|apply Nat.mod_upper_bound; lia].
Qed.
Print Assumptions C85_samples_partial.

(** ** Concrete cases *)
(** Images of two rows and two columns: the first row is redrawn *)
Definition im_g : config := plain 4 1 3 2 2 1 2 0 TLinsum SBottomUp.
Definition im_perm (r : nat) : list nat := if (r =? 0)%nat then [0; 1; 2; 3]%nat else [2; 0; 3; 1]%nat.
Definition im_o : oracle nat := choices [1; 1; 1; 1]%nat im_perm third.
Lemma im_oracle : oracle_ok im_g im_o.
Proof.
  apply choices_ok.
  - cbn. perms.
  - intros r Hr. unfold perm_len, plain. cbn [g_struct g_R g_F]. rewrite !nval_nat. destruct r as [|[|]]; [| |lia]; unfold im_perm; cbn [Nat.eqb]; perms.
Qed.
Lemma im_net : exists E, accepted im_g im_o E /\ e_F E = 4%nat /\ e_C E = 1%nat /\ e_K E = 1%nat /\ discrete_leaf 2 (leafE E) /\ lf_ctx (leafE E) = true /\ mode_ok E.
Proof.
  destruct (build_succeeds im_g im_o) as (E & HE).
  - apply plain_valid; try lia; try lra; try congruence. simpl; lia.
  - reflexivity.
  - apply im_oracle.
  - exists 0%R. split; [constructor|lra].
  - cbn [im_g plain g_depth zval]. lia.
  - intros _. cbn [im_g plain g_depth zval]. lia.
  - exists E. assert (A: accepted im_g im_o E) by (split; [reflexivity|apply im_oracle|exact HE]).
    destruct (build_inv im_g im_o E eq_refl im_oracle HE) as (_ & EF & EC & ER & EK).
    split; [exact A|]. cbn [im_g plain g_F g_C g_R g_K] in *. rewrite nval_nat in *. split; [exact EF|]. split; [exact EC|]. split; [exact EK|].
    assert (L: leafE E = coin third 4 1 2 2).
    { unfold build in HE. apply bind_ok in HE as ([] & _ & HE). cbn [im_g plain g_struct] in HE. unfold build_bottom_up in HE.
      apply bind_ok in HE as (? & _ & HE). apply bind_ok in HE as (? & _ & HE). apply bind_ok in HE as (? & _ & HE).
      apply bind_ok in HE as (? & _ & HE). apply bind_ok in HE as (? & _ & HE). apply bind_ok in HE as (lf & Hl & HE).
      apply bind_ok in HE as (? & _ & HE). apply bind_ok in HE as (? & _ & HE).
      inversion HE. unfold leafE. cbn [e_leaf leaf_of]. cbn [im_o choices o_leaf] in Hl.
      unfold im_g, plain in Hl. cbn [g_F g_C g_L g_R] in Hl. rewrite !nval_nat in Hl. inversion Hl. reflexivity. }
    unfold mode_ok. rewrite L. split; [apply coin_discrete; apply third_ok|]. split; [reflexivity|]. eexists. split; [reflexivity|]. intros c f l r _ _ _ _. cbn [coin lf_supp]. destruct (Rle_dec _ _); reflexivity.
Qed.
Definition im_x : tensor (option nat) := mkT [2; 1; 2; 2]%nat (fun idx => match idx with [n; _; h; w] => Some ((n + h + w) mod 2)%nat | _ => None end).
Lemma im_batch E : e_F E = 4%nat -> e_C E = 1%nat -> discrete_leaf 2 (leafE E) -> batch E 2 im_x /\ complete E 2 im_x.
Proof.
  intros HF HC HD. split.
  - split; [rewrite HF, HC; right; right; exists 2%nat, 2%nat; repeat split; lia|]. intros n c f v Hn Hc Hf He. unfold entry in He. cbn [im_x shape ix get] in He.
    assert (v = ((n + f / 2 + f mod 2) mod 2)%nat) as -> by congruence. rewrite (dl_supp 2 _ HD). apply Nat.ltb_lt, Nat.mod_upper_bound. lia.
  - intros n c f Hn Hc Hf He. unfold entry in He. cbn [im_x shape ix get] in He. discriminate He.
Qed.
(** Image 0 has rows 0 1 and 1 0, image 1 has rows 1 0 and 0 1; after reconstruction the second rows are the same, divided by the 2 bins. *)
Example C85_reconstruct_ex : exists g o (E : einet nat), accepted g o E /\ forall us r,
  outcome (fun _ v => (v < 2)%nat) (reconstruct INR us false 2 (mkShape 1 2 2) E false false false im_x) r ->
  exists t, r = Ok t /\ get t [0; 0; 1; 0]%nat = Fin (1 / 2) /\ get t [0; 0; 1; 1]%nat = Fin (0 / 2) /\ get t [1; 0; 1; 0]%nat = Fin (0 / 2) /\ exists v, (v < 2)%nat /\ get t [0; 0; 0; 0]%nat = Fin (INR v / 2).
Proof.
  destruct im_net as (E & A & HF & HC & HK & HD & X & M). exists im_g, im_o, E. split; [exact A|]. intros us r Ho. destruct (im_batch E HF HC HD) as [HB HX].
  destruct (C85_reconstruct nat INR us false 2 im_g im_o E (mkShape 1 2 2) false false false 2 im_x (fun _ v => (v < 2)%nat) r A) as (t & cut & -> & HH & _ & G); auto; try lra; try discriminate.
  - split; cbn; lia.
  - intros _ v Hv. rewrite (dl_supp 2 _ HD). apply Nat.ltb_lt. exact Hv.
  - cbn [i_H i_W] in *. assert (cut = 1%nat) by (destruct HH as [Q|[Q1 Q2]]; [lia|]; assert (cut = 1%nat \/ cut = 0%nat) as [-> | ->] by lia; [reflexivity|exfalso; lia]). subst cut.
    exists t. split; [reflexivity|].
    assert (KP: forall n w, (n < 2)%nat -> (w < 2)%nat -> get t [n; 0; 1; w]%nat = Fin (INR ((n + 1 + w) mod 2) / 2)).
    { intros n w Hn Hw. destruct (G n 1%nat w Hn ltac:(lia) Hw) as (v & G1 & _ & G3). specialize (G3 ltac:(lia)). unfold entry in G3. cbn [im_x shape ix get] in G3. rewrite Nat.mul_1_l in G3.
      replace ((2 + w) / 2)%nat with 1%nat in G3 by (apply Nat.div_unique with w; lia). replace ((2 + w) mod 2)%nat with w in G3 by (apply Nat.mod_unique with 1%nat; lia).
      assert (v = (n + 1 + w) mod 2)%nat as -> by congruence. exact G1. }
    rewrite !KP by lia. cbn. split; [reflexivity|]. split; [reflexivity|]. split; [reflexivity|]. destruct (G 0%nat 0%nat 0%nat ltac:(lia) ltac:(lia) ltac:(lia)) as (v & G1 & G2 & _). exists v.
    rewrite (dl_supp 2 _ HD) in G2. apply Nat.ltb_lt in G2. split; [exact G2|exact G1].
Qed.
(** The probability that both images keep their second rows and get two zeros above *)
Example C85_law_ex : exists (E : einet nat) S, (forall f, (f < 4)%nat -> (In f S <-> (f < 2)%nat)) /\
  Pr 2 (leafE E) (reconstruct INR (fun _ _ => 0) false 2 (mkShape 1 2 2) E false false false im_x) (pictures_are (mkShape 1 2 2) 2 false 2 (fun n h w => if (h =? 0)%nat then 0 else (n + h + w) mod 2)%nat) =
  rprod 2 (fun n => lik E (one_row 1 4 (fun _ f => if (f / 2 =? 0)%nat then 0 else (n + f / 2 + f mod 2) mod 2)%nat) None 0 0 / lik E im_x (Some S) n 0).
Proof.
  destruct im_net as (E & A & HF & HC & HK & HD & X & M). exists E. destruct (im_batch E HF HC HD) as [HB HX].
  destruct (C85_law_partial (fun _ _ => 0) false 2 im_g im_o E (mkShape 1 2 2) 2 2 im_x (fun n h w => if (h =? 0)%nat then 0 else (n + h + w) mod 2)%nat) as (cut & S & HH & HS & L & _); auto; try lra; try exact I.
  - split; cbn; lia.
  - intros n h w _ _ _. destruct (h =? 0)%nat; [lia|apply Nat.mod_upper_bound; lia].
  - exists S. cbn [i_H i_W] in *. assert (cut = 1%nat) by (destruct HH as [Q|[Q1 Q2]]; [lia|]; assert (cut = 1%nat \/ cut = 0%nat) as [-> | ->] by lia; [reflexivity|exfalso; lia]). subst cut. split.
    + intros f Hf. pose proof (Nat.div_mod f 2 ltac:(lia)) as D. pose proof (Nat.mod_upper_bound f 2 ltac:(lia)) as Mb. specialize (HS (f / 2)%nat (f mod 2)%nat ltac:(apply Nat.div_lt_upper_bound; lia) Mb). replace (f / 2 * 2 + f mod 2)%nat with f in HS by lia. rewrite HS. lia.
    + apply L. intros n h w Hn Hh Hw. assert (h = 1%nat) by lia. subst h. unfold entry. cbn [im_x shape ix get Nat.eqb]. rewrite Nat.mul_1_l.
      replace ((2 + w) / 2)%nat with 1%nat by (apply Nat.div_unique with w; lia). replace ((2 + w) mod 2)%nat with w by (apply Nat.mod_unique with 1%nat; lia). reflexivity.
Qed.
(** Two channels of one row of five pixels *)
Example C85_channels_ex : exists g o (E : einet nat), accepted g o E /\ forall us, reconstruct INR us false 2 (mkShape 2 1 5) E false false false (two_rows 2 5 (fun n c f => Some ((n + c + f) mod 2)%nat)) = Fail IndexErr.
Proof.
  destruct ex_td as (E & A & HF & HC & HR & HK & D & _). exists ex_td_g, ex_td_o, E. split; [exact A|]. intros us.
  apply (C85_channels_refuted nat INR us false 2 ex_td_g ex_td_o E (mkShape 2 1 5) false false false 2); [exact A|split; cbn; lia|cbn; lia|cbn; lia|].
  apply two_rows_batch; auto; [apply (dl_supp 2 _ D)|]. intros n c f u H. assert (u = (n + c + f) mod 2)%nat as -> by congruence. apply Nat.mod_upper_bound. lia.
Qed.
(** Two images of real numbers over Normal leaves: the probability that the redrawn pixels lie in given intervals *)
Definition im_ro : oracle R := rchoices [1; 1; 1; 1]%nat im_perm.
Lemma im_roracle : oracle_ok im_g im_ro.
Proof.
  apply rchoices_ok.
  - cbn. perms.
  - intros r Hr. unfold perm_len, plain. cbn [g_struct g_R g_F]. rewrite !nval_nat. destruct r as [|[|]]; [| |lia]; unfold im_perm; cbn [Nat.eqb]; perms.
Qed.
Lemma im_rnet : exists E, accepted im_g im_ro E /\ e_F E = 4%nat /\ e_C E = 1%nat /\ e_K E = 1%nat /\ leafE E = normal_leaf 4 1 2 2 nmean nlogvar.
Proof.
  destruct (build_succeeds im_g im_ro) as (E & HE).
  - apply plain_valid; try lia; try lra; try congruence. simpl; lia.
  - reflexivity.
  - apply im_roracle.
  - exists 0%R. split; [constructor|lra].
  - cbn [im_g plain g_depth zval]. lia.
  - intros _. cbn [im_g plain g_depth zval]. lia.
  - exists E. assert (A: accepted im_g im_ro E) by (split; [reflexivity|apply im_roracle|exact HE]).
    destruct (build_inv im_g im_ro E eq_refl im_roracle HE) as (_ & EF & EC & ER & EK).
    split; [exact A|]. cbn [im_g plain g_F g_C g_R g_K] in *. rewrite nval_nat in *. split; [exact EF|]. split; [exact EC|]. split; [exact EK|].
    unfold build in HE. apply bind_ok in HE as ([] & _ & HE). cbn [im_g plain g_struct] in HE. unfold build_bottom_up in HE.
    apply bind_ok in HE as (? & _ & HE). apply bind_ok in HE as (? & _ & HE). apply bind_ok in HE as (? & _ & HE).
    apply bind_ok in HE as (? & _ & HE). apply bind_ok in HE as (? & _ & HE). apply bind_ok in HE as (lf & Hl & HE).
    apply bind_ok in HE as (? & _ & HE). apply bind_ok in HE as (? & _ & HE).
    inversion HE. unfold leafE. cbn [e_leaf leaf_of]. cbn [im_ro rchoices o_leaf] in Hl.
    unfold im_g, plain in Hl. cbn [g_F g_C g_L g_R] in Hl. rewrite !nval_nat in Hl. inversion Hl. reflexivity.
Qed.
Definition im_rx : tensor (option R) := mkT [2; 1; 2; 2]%nat (fun idx => match idx with [n; _; h; w] => Some (INR (n + h + w)) | _ => None end).
Definition in_box (n c h w : nat) (p : num) : R := match p with Fin v => between (INR w - 1) (INR (w + n)) v | _ => 0 end.
Example C85_density_ex : exists (E : einet R) EL S, accepted im_g im_ro E /\ leaf_expectation EL /\ (forall f, (f < 4)%nat -> (In f S <-> (f < 2)%nat)) /\
  exists I, (forall n, (n < 2)%nat -> integrates (fun _ _ => improper) (fun z => lik E (row_tensor 1 4 z) None 0 0 *
      tests 1 4 (pixel_test (fun v => v) true 256 (mkShape 1 2 2) in_box n) z) [(0, 0); (0, 1)]%nat (observed im_rx (Some S) n) (I n)) /\
    expect EL (reconstruct (fun v => v) (fun _ _ => 0) true 256 (mkShape 1 2 2) E false false false im_rx) (pixel_tests (mkShape 1 2 2) 2 in_box) =
    rprod 2 (fun n => I n / lik E im_rx (Some S) n 0).
Proof.
  destruct im_rnet as (E & A & HF & HC & HK & Lf). set (p := fun key => normal_pdf (nmean key) (normal_sigma (nlogvar key))).
  assert (P: leaf_expectation (the_integral p)) by (apply the_integral_ok; intros; apply normal_mass; apply exp_pos). exists E, (the_integral p).
  destruct (C85_density_partial R (fun v => v) (fun _ _ => 0) true 256 im_g im_ro E (mkShape 1 2 2) (fun _ _ => improper) (the_integral p) 2 im_rx in_box) as (cut & S & HH & HS & H); auto; try lra; try exact I.
  - rewrite Lf. reflexivity.
  - rewrite Lf. apply normal_density.
  - split; cbn; lia.
  - split; [rewrite HF, HC; right; right; exists 2%nat, 2%nat; repeat split; lia|]. intros. rewrite Lf. reflexivity.
  - intros n c f Hn Hc Hf He. unfold entry in He. cbn [im_rx shape ix get] in He. discriminate He.
  - intros n c h w v. unfold in_box. destruct v; try lra. apply between_nonneg.
  - intros n h w _ _ _. cbn [i_W]. rewrite Lf. unfold shown, in_box. assert (Huv: INR w - 1 <= INR (w + n)) by (rewrite plus_INR; pose proof (pos_INR n); lra).
    change (fun v => between (INR w - 1) (INR (w + n)) v) with (between (INR w - 1) (INR (w + n))).
    split; [intros; apply between_nonneg|]. intros l r _ _. set (key := [0; (h * 2 + w); l; r]%nat). set (hh := fun x => normal_pdf (nmean key) (normal_sigma (nlogvar key)) x * between (INR w - 1) (INR (w + n)) x).
    assert (HI: improper hh (normal_cdf (nmean key) (normal_sigma (nlogvar key)) (INR (w + n)) - normal_cdf (nmean key) (normal_sigma (nlogvar key)) (INR w - 1))) by (apply normal_between; auto; apply exp_pos).
    rewrite (the_integral_val p key (between (INR w - 1) (INR (w + n))) _ HI). apply (li_ext _ improper_linear hh); auto. intros x. unfold hh. f_equal. symmetry. apply normal_lp_pdf. apply exp_pos.
  - exists S. cbn [i_H i_W] in *. assert (cut = 1%nat) by (destruct HH as [Q|[Q1 Q2]]; [lia|]; assert (cut = 1%nat \/ cut = 0%nat) as [-> | ->] by lia; [reflexivity|exfalso; lia]). subst cut. split; [exact A|]. split; [exact P|].
    assert (IN: forall f, (f < 4)%nat -> (In f S <-> (f < 2)%nat)).
    { intros f Hf. pose proof (Nat.div_mod f 2 ltac:(lia)) as D. pose proof (Nat.mod_upper_bound f 2 ltac:(lia)) as Mb. specialize (HS (f / 2)%nat (f mod 2)%nat ltac:(apply Nat.div_lt_upper_bound; lia) Mb). replace (f / 2 * 2 + f mod 2)%nat with f in HS by lia. rewrite HS. lia. }
    split; [exact IN|]. destruct (H (fun _ => [(0, 0); (0, 1)]%nat)) as (Iv & H1 & H2).
    + intros n Hn. split; [repeat constructor; cbn; intuition congruence|]. intros c f. unfold observed. split.
      * intros [Q|[Q|[]]]; injection Q as <- <-; split; try lia; split; try lia; rewrite (proj2 (existsb_eqb_In _ _)); auto; apply IN; lia.
      * intros (Hc & Hf & Ho). assert (c = 0%nat) by lia. subst c. destruct (existsb (Nat.eqb f) S) eqn:Ex.
        -- apply existsb_eqb_In in Ex. apply IN in Ex; [|lia]. destruct f as [|[|]]; [left; auto|right; left; auto|lia].
        -- unfold entry in Ho. cbn [im_rx shape ix get] in Ho. discriminate Ho.
    + exists Iv. split; [exact H1|exact H2].
Qed.
