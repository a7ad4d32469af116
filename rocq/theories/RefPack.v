(** Consequences of the sampling laws in the form of the final theorems. *)
From Coq Require Import List Arith Lia Bool ZArith Reals Lra Permutation.
Import ListNotations.
From Verif Require Import Base RSum Num Tensor Prob Layers Circuit Net RefFwd RefSample RefLaw Leaf Perm RefLeaf RefLeafS TypeChecks
  Einet RefNet RefEinet RefEinetS RefMpe RefScopes Build RefBuild Spec RefSpec RefSpecS RefMore.
Local Open Scope R_scope.
Local Arguments Nat.div : simpl never.
Local Arguments Nat.modulo : simpl never.
Local Arguments Nat.sub : simpl never.
Local Arguments Nat.mul : simpl never.
Local Arguments Nat.add : simpl never.

Lemma rsum_1 f : rsum 1 f = f 0%nat.
Proof. rewrite rsum_S, rsum_0. ring. Qed.
Lemma rprod_zero N n f : (n < N)%nat -> f n = 0 -> rprod N f = 0.
Proof.
  induction N as [|N IH]; intros Hn Hz; [lia|]. rewrite rprod_S. destruct (Nat.eq_dec n N) as [->|]; [rewrite Hz; ring|]. rewrite IH by (auto; lia). ring.
Qed.
Lemma evidence_input {V} (E : einet V) N e ms : evidence E N e ms -> input_ok E N e ms.
Proof. intros [H1 H2]. destruct ms; [apply batch_input_ms; auto|apply batch_input; auto]. Qed.
Lemma observed_row {V} (e : tensor (option V)) ms n : observed e ms n = row e ms n.
Proof. unfold observed, row, in_ms. destruct ms; reflexivity. Qed.
Lemma batch_size {V} (E : einet V) N e : batch E N e -> size e 0 = N.
Proof. intros [[(H & _)|[H|(H & W & Hs & _)]] _]; unfold size; [rewrite H|rewrite H|rewrite Hs]; reflexivity. Qed.
Lemma agree_groups {V} g o (E : einet V) : accepted g o E -> consistent g -> groups_agree E.
Proof. intros [H1 H2 H3]. apply (groups_agree_build g o E H1 H2 H3). Qed.

Lemma root_logits {V} g (o : oracle V) E : accepted g o E -> (1 < e_K E)%nat -> exists s, e_root E = Some s /\ forall idx, get (logits s) idx = o_root o idx.
Proof.
  intros HA HK. destruct HA as [H1 H2 H]. unfold build in H. apply bind_ok in H as ([] & _ & H).
  assert (R: forall r, build_root g o = Ok r -> (1 < nval (g_K g))%nat -> exists s, r = Some s /\ forall idx, get (logits s) idx = o_root o idx).
  { intros r Hr Hk. unfold build_root in Hr. destruct (Nat.ltb_spec 1 (nval (g_K g))); [|lia].
    apply bind_ok in Hr as (m & Hm & Hr). inversion Hr; subst r. apply new_layer_inv in Hm. subst m. eexists. split; [reflexivity|]. reflexivity. }
  destruct (g_struct g); [| |discriminate].
  - unfold build_top_down in H. apply bind_ok in H as (? & _ & H). apply bind_ok in H as (? & _ & H). apply bind_ok in H as (? & _ & H).
    apply bind_ok in H as (? & _ & H). apply bind_ok in H as (? & _ & H). apply bind_ok in H as (r & Hr & H).
    inversion H; subst E. cbn [e_root e_K] in *. auto.
  - unfold build_bottom_up in H. apply bind_ok in H as (? & _ & H). apply bind_ok in H as (? & _ & H). apply bind_ok in H as (? & _ & H).
    apply bind_ok in H as (? & _ & H). apply bind_ok in H as (? & _ & H). apply bind_ok in H as (? & _ & H).
    apply bind_ok in H as (? & _ & H). apply bind_ok in H as (r & Hr & H). inversion H; subst E. cbn [e_root e_K] in *. auto.
Qed.

(** * Free sampling *)
Section Free.
Variables (g : config) (o : oracle nat) (E : einet nat) (B : nat).
Hypothesis HA : accepted g o E.
Hypothesis Hco : consistent g.
Hypothesis HB : discrete_leaf B (leafE E).
Hypothesis Hctx : lf_ctx (leafE E) = true.
Let HE := accepted_ok g o E HA.
Let Hg := agree_groups g o E HA Hco.

Definition in_support N (xs : nat -> nat -> nat -> nat) : Prop :=
  forall n c f, (n < N)%nat -> (c < e_C E)%nat -> (f < e_F E)%nat -> (xs n c f < B)%nat.

Lemma free_single N xs : e_K E = 1%nat -> (0 < N)%nat -> in_support N xs ->
  Pr B (leafE E) (sample E (mkArgs (Some N) CNone None false false 1 None)) (rows_are N (e_C E) (e_F E) xs) =
  rprod N (fun n => lik E (one_row (e_C E) (e_F E) (xs n)) None 0 0).
Proof.
  intros HK HN Hx. set (a := mkArgs _ _ _ _ _ _ _).
  rewrite (sample_rows_prob E HE B HB Hctx a); auto.
  - apply rprod_ext. intros n Hn. rewrite HK, rsum_1. unfold cweight. rewrite HK. cbn [Nat.ltb Nat.leb]. ring.
  - unfold check_args. cbn. destruct (e_K E =? 1)%nat; reflexivity.
  - exact I.
Qed.
Lemma free_class N y xs : (1 < e_K E)%nat -> (y < e_K E)%nat -> (0 < N)%nat -> in_support N xs ->
  Pr B (leafE E) (sample E (mkArgs (Some N) (CInt y) None false false 1 None)) (rows_are N (e_C E) (e_F E) xs) =
  rprod N (fun n => lik E (one_row (e_C E) (e_F E) (xs n)) None 0 y).
Proof.
  intros HK Hy HN Hx. set (a := mkArgs _ _ _ _ _ _ _).
  rewrite (sample_rows_prob E HE B HB Hctx a); auto.
  - apply rprod_ext. intros n Hn. unfold cweight. destruct (Nat.ltb_spec 1 (e_K E)); [|lia]. cbn [a a_class].
    apply (rsum_ind (e_K E) y (fun k => lik E (one_row (e_C E) (e_F E) (xs n)) None 0 k)). auto.
  - unfold check_args. cbn. destruct (Nat.eqb_spec (e_K E) 1); [lia|reflexivity].
  - split; auto.
Qed.
Lemma free_list cs xs : (1 < e_K E)%nat -> (forall c, In c cs -> (c < e_K E)%nat) -> (0 < length cs)%nat -> in_support (length cs) xs ->
  Pr B (leafE E) (sample E (mkArgs (Some (length cs)) (CList cs) None false false 1 None)) (rows_are (length cs) (e_C E) (e_F E) xs) =
  rprod (length cs) (fun n => lik E (one_row (e_C E) (e_F E) (xs n)) None 0 (nth n cs 0%nat)).
Proof.
  intros HK Hy HN Hx. set (a := mkArgs _ _ _ _ _ _ _).
  rewrite (sample_rows_prob E HE B HB Hctx a); auto.
  - apply rprod_ext. intros n Hn. unfold cweight. destruct (Nat.ltb_spec 1 (e_K E)); [|lia]. cbn [a a_class].
    apply (rsum_ind (e_K E) (nth n cs 0%nat) (fun k => lik E (one_row (e_C E) (e_F E) (xs n)) None 0 k)). apply Hy. apply nth_In. auto.
  - unfold check_args. cbn. destruct (Nat.eqb_spec (e_K E) 1); [lia|reflexivity].
  - split; auto.
Qed.

(** * With evidence *)
Definition given (e : tensor (option nat)) (ms : option (list nat)) : sargs := mkArgs None CNone (Some e) false false 1 ms.
Lemma given_law N e ms xs : evidence E N e ms -> (0 < N)%nat -> in_support N xs ->
  Pr B (leafE E) (sample E (given e ms)) (rows_are N (e_C E) (e_F E) xs) =
  rprod N (fun n => rsum (e_K E) (fun y => cweight E (given e ms) n y *
     (if agrees_with E (observed e ms n) (xs n)
      then lik E (one_row (e_C E) (e_F E) (xs n)) None 0 y / lik E e ms n y else 0))).
Proof.
  intros He HN Hx. assert (EN: num_samples (given e ms) = N) by (cbn; apply (batch_size E); apply He).
  pose proof (sample_evidence_prob E HE B HB Hctx (given e ms) e eq_refl) as P. rewrite EN in P.
  rewrite P; auto.
  - apply rprod_ext. intros n Hn. rewrite observed_row. reflexivity.
  - unfold check_args. cbn. destruct (e_K E =? 1)%nat; reflexivity.
  - apply evidence_input; auto.
Qed.
Definition respects N (e : tensor (option nat)) ms (xs : nat -> nat -> nat -> nat) : Prop :=
  forall n c f v, (n < N)%nat -> (c < e_C E)%nat -> (f < e_F E)%nat -> observed e ms n c f = Some v -> xs n c f = v.
Lemma given_agree N e ms xs : evidence E N e ms -> (0 < N)%nat -> in_support N xs -> respects N e ms xs ->
  Pr B (leafE E) (sample E (given e ms)) (rows_are N (e_C E) (e_F E) xs) =
  rprod N (fun n => rsum (e_K E) (fun y => cweight E (given e ms) n y *
      (lik E (one_row (e_C E) (e_F E) (xs n)) None 0 y / lik E e ms n y))).
Proof.
  intros He HN Hx Hr. rewrite given_law by auto. apply rprod_ext. intros n Hn. apply rsum_ext. intros y Hy.
  replace (agrees_with E (observed e ms n) (xs n)) with true; auto. symmetry. apply agrees_with_iff.
  intros c f v Hc Hf Hv. symmetry. apply (Hr n c f v); auto.
Qed.
Lemma given_disagree N e ms xs : evidence E N e ms -> (0 < N)%nat -> in_support N xs ->
  (exists n c f v, (n < N)%nat /\ (c < e_C E)%nat /\ (f < e_F E)%nat /\ observed e ms n c f = Some v /\ xs n c f <> v) ->
  Pr B (leafE E) (sample E (given e ms)) (rows_are N (e_C E) (e_F E) xs) = 0.
Proof.
  intros He HN Hx (n & c & f & v & Hn & Hc & Hf & Ho & Hne). rewrite given_law by auto. apply (rprod_zero N n); auto.
  replace (agrees_with E (observed e ms n) (xs n)) with false.
  - rewrite (rsum_ext _ _ (fun _ => 0)); [apply rsum_zero|]. intros; ring.
  - symmetry. apply not_true_iff_false. intros A. rewrite agrees_with_iff in A. apply Hne. symmetry. apply (A c f v); auto.
Qed.
Lemma given_single N e ms xs : e_K E = 1%nat -> evidence E N e ms -> (0 < N)%nat -> in_support N xs -> respects N e ms xs ->
  Pr B (leafE E) (sample E (given e ms)) (rows_are N (e_C E) (e_F E) xs) =
  rprod N (fun n => lik E (one_row (e_C E) (e_F E) (xs n)) None 0 0 / lik E e ms n 0).
Proof.
  intros HK He HN Hx Hr. rewrite given_agree by auto. apply rprod_ext. intros n Hn. rewrite HK, rsum_1. unfold cweight. rewrite HK.
  cbn [Nat.ltb Nat.leb]. ring.
Qed.

(** * The class prior *)
(** The softmax of the logits of the class sampling root. *)
Definition root_prior (y : nat) : R :=
  exp (toR (o_root o [0; y; 0; 0]%nat)) / rsum (e_K E) (fun j => exp (toR (o_root o [0; j; 0; 0]%nat))).
Lemma wroot_prior y : (1 < e_K E)%nat -> (y < e_K E)%nat -> wroot E 1 y = root_prior y.
Proof.
  intros HK Hy. destruct (root_logits g o E HA HK) as (s & Es & Hs). unfold wroot. rewrite Es. unfold wsoft, rsoftmax, root_prior.
  rewrite Hs. apply f_equal2; [f_equal; unfold Rdiv; rewrite Rinv_1; ring|]. apply rsum_ext. intros j Hj. rewrite Hs. f_equal. unfold Rdiv. rewrite Rinv_1. ring.
Qed.
Lemma prior_pos y : (1 < e_K E)%nat -> 0 < root_prior y.
Proof.
  intros HK. unfold root_prior. apply Rdiv_lt_0_compat; [apply exp_pos|]. apply rsum_pos; [lia|]. intros; apply exp_pos.
Qed.
Lemma prior_sum : (1 < e_K E)%nat -> rsum (e_K E) root_prior = 1.
Proof.
  intros HK. rewrite <- (wsoft_sum (e_K E) 1 (fun y => o_root o [0; y; 0; 0]%nat)) by lia. apply rsum_ext. intros y Hy.
  rewrite <- wroot_prior by auto. destruct (root_logits g o E HA HK) as (s & Es & Hs). unfold wroot. rewrite Es. apply wsoft_ext; auto.
Qed.
Lemma free_prior N xs : (1 < e_K E)%nat -> (0 < N)%nat -> in_support N xs ->
  Pr B (leafE E) (sample E (mkArgs (Some N) CNone None false false 1 None)) (rows_are N (e_C E) (e_F E) xs) =
  rprod N (fun n => rsum (e_K E) (fun y => root_prior y * lik E (one_row (e_C E) (e_F E) (xs n)) None 0 y)).
Proof.
  intros HK HN Hx. set (a := mkArgs _ _ _ _ _ _ _).
  rewrite (sample_rows_prob E HE B HB Hctx a); auto.
  - apply rprod_ext. intros n Hn. apply rsum_ext. intros y Hy. unfold cweight. destruct (Nat.ltb_spec 1 (e_K E)); [|lia]. cbn [a a_class a_tsum].
    rewrite wroot_prior by auto. reflexivity.
  - unfold check_args. cbn. destruct (e_K E =? 1)%nat; reflexivity.
  - exact I.
Qed.
Lemma given_prior N e ms xs : (1 < e_K E)%nat -> evidence E N e ms -> (0 < N)%nat -> in_support N xs -> respects N e ms xs ->
  Pr B (leafE E) (sample E (given e ms)) (rows_are N (e_C E) (e_F E) xs) =
  rprod N (fun n => rsum (e_K E) (fun y => root_prior y * (lik E (one_row (e_C E) (e_F E) (xs n)) None 0 y / lik E e ms n y))).
Proof.
  intros HK He HN Hx Hr. rewrite given_agree by auto. apply rprod_ext. intros n Hn. apply rsum_ext. intros y Hy. f_equal.
  unfold cweight. destruct (Nat.ltb_spec 1 (e_K E)); [|lia]. cbn [given a_class a_tsum]. apply wroot_prior; auto.
Qed.
Lemma prior_uniform c : (1 < e_K E)%nat -> (forall y, o_root o [0; y; 0; 0]%nat = c) -> forall y, root_prior y = / INR (e_K E).
Proof.
  intros HK H y. unfold root_prior. rewrite H. rewrite (rsum_ext _ _ (fun _ => exp (toR c))) by (intros; rewrite H; auto).
  rewrite rsum_const. pose proof (exp_pos (toR c)). assert (0 < INR (e_K E)) by (apply lt_0_INR; lia). field. lra.
Qed.
End Free.

(** * Evidence in every mode *)
Lemma evidence_kept {V} g o (E : einet V) N e ms mpe mpel T : accepted g o E -> lf_ctx (leafE E) = true ->
  evidence E N e ms -> (0 < N)%nat -> T <> 0 ->
  (mpe || mpel = true -> exists md, lf_mode (leafE E) = Some md /\ forall c f l r, (c < e_C E)%nat -> (f < e_F E)%nat -> (l < e_L E)%nat -> (r < e_R E)%nat -> lf_supp (leafE E) (md [c; f; l; r]) = true) ->
  forall (supp : list nat -> V -> Prop) r, (forall key v, supp key v -> lf_supp (leafE E) v = true) ->
  outcome supp (sample E (mkArgs None CNone (Some e) mpe mpel T ms)) r ->
  exists t, r = Ok t /\ shape t = shape e /\
    forall n c f, (n < N)%nat -> (c < e_C E)%nat -> (f < e_F E)%nat ->
      match observed e ms n c f with
      | Some v => entry t n c f = Some v
      | None => exists w, entry t n c f = Some w /\ lf_supp (leafE E) w = true
      end.
Proof.
  intros HA Hctx He HN HT Hmd supp r Hs Ho. pose proof (accepted_ok g o E HA) as HE.
  set (a := mkArgs None CNone (Some e) mpe mpel T ms) in *. assert (EN: num_samples a = N) by (cbn; apply (batch_size E); apply He).
  destruct (sample_evidence_out E HE a e eq_refl) as [O _].
  - unfold check_args. cbn. destruct (e_K E =? 1)%nat; reflexivity.
  - rewrite EN. apply evidence_input; auto.
  - rewrite EN; auto.
  - exact HT.
  - exact Hctx.
  - intros Hm. destruct (Hmd Hm) as (md & Em & _). unfold leafE in Em. rewrite Em. discriminate.
  - destruct (O supp r Ho) as (t & -> & St & Gt). exists t. split; auto. split; auto. intros n c f Hn Hc Hf. rewrite EN in Gt.
    specialize (Gt n c f Hn Hc Hf). cbn [a a_ms] in Gt. rewrite <- observed_row in Gt. destruct (observed e ms n c f); auto.
    destruct Gt as (w & Gw & l & r & Hl & Hr & Hf'). exists w. split; auto. cbn [a a_mpe a_mpel] in Hf'. destruct (mpe || mpel) eqn:Em.
    + destruct (Hmd eq_refl) as (md & Emd & Hmd'). destruct Hf' as (md' & Emd' & ->). unfold leafE in Emd. assert (md' = md) by congruence. subst md'. auto.
    + eauto.
Qed.
