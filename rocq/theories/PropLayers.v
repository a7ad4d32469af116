(** C14-C16, C19, C20, C26, C27: weights, log-einsum-exp, groups, permutations, construction, routing. *)
From Coq Require Import List Arith Lia Bool ZArith Reals Lra Permutation.
Import ListNotations.
From Verif Require Import Base RSum Num Tensor Prob Layers RefFwd RefSample Lse RefLayer Leaf Perm RefLeaf TypeChecks Einet RefEinet RefScopes Build RefBuild Spec RefSpec RefMore RefCtor Ex ExBad PropForward.
Local Open Scope R_scope.

(** * C14: projected weights *)
(** [along t d idx k]: the entry of [t] at [idx] with index [k] in dimension [d]. *)
Theorem C14_weights_value : forall lg d T idx, all_fin lg -> (d < dim lg)%nat -> T <> 0 -> inb (shape lg) idx ->
  get (logits_to_log_weights lg d T) idx =
  Fin (ln (exp (toR (get lg idx) / T) / rsum (size lg d) (fun k => exp (toR (along lg d idx k) / T)))).
Proof. exact weights_log. Qed.
Print Assumptions C14_weights_value.
Theorem C14_weights_sum : forall lg d T idx, all_fin lg -> (d < dim lg)%nat -> T <> 0 -> inb (shape lg) idx ->
  rsum (size lg d) (fun k => exp (toR (along (logits_to_log_weights lg d T) d idx k))) = 1.
Proof. exact weights_sum. Qed.
Print Assumptions C14_weights_sum.
Theorem C14_weights_order : forall lg d T idx j k, all_fin lg -> (d < dim lg)%nat -> 0 < T -> inb (shape lg) idx ->
  (j < size lg d)%nat -> (k < size lg d)%nat ->
  (toR (along (logits_to_log_weights lg d T) d idx j) < toR (along (logits_to_log_weights lg d T) d idx k) <->
   toR (along lg d idx j) < toR (along lg d idx k)).
Proof. exact weights_order. Qed.
Print Assumptions C14_weights_order.
(** Adding the same number to all logits that compete with each other changes nothing. *)
Theorem C14_weights_shift : forall lg d T (c : list nat -> R) idx, all_fin lg -> (d < dim lg)%nat -> T <> 0 -> inb (shape lg) idx ->
  (forall i k, c (set_nth d k i) = c i) ->
  get (logits_to_log_weights (mkT (shape lg) (fun i => nadd (get lg i) (Fin (c i)))) d T) idx =
  get (logits_to_log_weights lg d T) idx.
Proof. exact weights_shift. Qed.
Print Assumptions C14_weights_shift.
Example C14_ex : let lg := mkT [2; 3]%nat grow in
  rsum 3 (fun k => exp (toR (along (logits_to_log_weights lg 1 (1/2)) 1 [1; 0]%nat k))) = 1 /\
  toR (along (logits_to_log_weights lg 1 (1/2)) 1 [1; 0]%nat 0) < toR (along (logits_to_log_weights lg 1 (1/2)) 1 [1; 0]%nat 2).
Proof.
  intros lg. assert (A: all_fin lg) by (intros idx _; eexists; reflexivity). assert (D: (1 < dim lg)%nat) by (cbn; lia).
  assert (I: inb (shape lg) [1; 0]%nat) by (cbn; lia). split.
  - exact (C14_weights_sum lg 1 (1/2) [1; 0]%nat A D ltac:(lra) I).
  - apply (C14_weights_order lg 1 (1/2) [1; 0]%nat 0 2 A D ltac:(lra) I); try (cbn; lia). cbn. lra.
Qed.

(** * C15: exact logsumexp *)
(** log-einsum-exp of an EinsumLayer; [pair_weight] is the softmax of the logits over pairs of channels
    and [vexp x n d s r] is exp(x[n, d, s, r]). *)
Theorem C15_einsum_exact : forall L x N, einsum_ok L -> values x N (nf L) (sin L) (nrep L) ->
  exists y ca, einsum_forward L x = Ok (y, ca) /\ shape y = [N; nf L / 2; sout L; nrep L]%nat /\
  forall n d o r, (n < N)%nat -> (d < nf L / 2)%nat -> (o < sout L)%nat -> (r < nrep L)%nat ->
    get y [n; d; o; r] = Fin (ln (rsum (sin L) (fun i => rsum (sin L) (fun j =>
      pair_weight L 1 d o r i j * vexp x n (2 * d) i r * vexp x n (2 * d + 1) j r)))).
Proof. exact einsum_exact. Qed.
Print Assumptions C15_einsum_exact.
(** logsumexp(tensors, mask, dim=-1). *)
Theorem C15_logsumexp_last_partial : forall pre K t mask (x : list nat -> nat -> R) (m : nat -> R), (0 < K)%nat -> shape t = pre ++ [K] ->
  (forall idx k, inb pre idx -> (k < K)%nat -> get t (idx ++ [k]) = Fin (x idx k)) ->
  match mask with
  | None => forall k, m k = 1
  | Some mk => shape mk = [K] /\ forall k, (k < K)%nat -> get mk [k] = Fin (m k)
  end ->
  exists y, logsumexp_masked t mask (length pre) = Ok y /\ shape y = pre /\
    forall idx, inb pre idx -> get y idx = nlog (Fin (rsum K (fun k => m k * exp (x idx k)))).
Proof. exact logsumexp_last. Qed.
Print Assumptions C15_logsumexp_last_partial.
(** For another dimension the mask is applied to the last one: the call raises ... *)
Theorem C15_logsumexp_dim_refuted : forall A B t, shape t = [A; B] -> A <> B -> A <> 1%nat -> B <> 1%nat ->
  logsumexp_masked t None 0 = Err RuntimeErr.
Proof. exact logsumexp_first_fails. Qed.
Print Assumptions C15_logsumexp_dim_refuted.
(** ... or weighs the result instead of the summands. *)
Theorem C15_logsumexp_square_refuted : exists t mk (x : nat -> nat -> R) (m : nat -> R) y,
  shape t = [2; 2]%nat /\ (forall i j, (i < 2)%nat -> (j < 2)%nat -> get t [i; j] = Fin (x i j)) /\
  shape mk = [2]%nat /\ (forall k, (k < 2)%nat -> get mk [k] = Fin (m k)) /\
  logsumexp_masked t (Some mk) 0 = Ok y /\
  get y [0%nat] <> nlog (Fin (rsum 2 (fun i => m i * exp (x i 0%nat)))).
Proof.
  set (x := fun _ _ : nat => 0). set (m := fun k : nat => if (k =? 0)%nat then 1 else 3).
  destruct (logsumexp_first_wrong 2 (mkT [2; 2]%nat (fun _ => Fin 0)) (mkT [2]%nat (fun i => Fin (m (hd 0%nat i)))) x m) as (y & Ey & Sy & Gy); auto; try lia.
  exists (mkT [2; 2]%nat (fun _ => Fin 0)), (mkT [2]%nat (fun i => Fin (m (hd 0%nat i)))), x, m, y.
  do 4 (split; [solve [auto]|]). split; [exact Ey|]. rewrite Gy by (cbn; try lia; lra).
  rewrite !rsum_S, !rsum_0. unfold x, m. cbn [Nat.eqb]. rewrite exp_0.
  match goal with |- Fin (ln ?a) <> nlog (Fin ?b) => assert (Ea: a = 2) by ring; assert (Eb: b = 4) by ring; rewrite Ea, Eb end.
  rewrite nlog_pos by lra. intros H. assert (L: ln 2 = ln 4) by congruence. apply ln_inv in L; lra.
Qed.
Print Assumptions C15_logsumexp_square_refuted.
Example C15_ex : exists y, logsumexp_masked (mkT [2; 3]%nat grow) (Some (mkT [3]%nat (fun _ => Fin 2))) 1 = Ok y /\
  get y [1%nat] = nlog (Fin (rsum 3 (fun k => 2 * exp (INR (1 + k))))).
Proof.
  destruct (C15_logsumexp_last_partial [2]%nat 3 (mkT [2; 3]%nat grow) (Some (mkT [3]%nat (fun _ => Fin 2)))
    (fun idx k => INR (hd 0%nat idx + k)) (fun _ => 2)) as (y & Ey & Sy & Gy); auto; try lia.
  - intros idx k Hi Hk. destruct idx as [|i [|]]; cbn in Hi; try tauto. cbn [get app grow]. unfold grow. f_equal. f_equal. cbn. lia.
  - exists y. split; [exact Ey|]. rewrite (Gy [1%nat]) by (cbn; lia). reflexivity.
Qed.

(** * C16: balanced groups *)
(** FactorizedLeaf (several repetitions): entry [f, o, r] of the scope tensor says that feature f
    belongs to group o in repetition r. *)
Theorem C16_scopes_balanced : forall F Fo Rn sizes perms, (0 < Fo)%nat -> (Fo <= F)%nat -> Permutation sizes (group_sizes F Fo) ->
  (forall r, (r < Rn)%nat -> is_perm (perms r) F) ->
  forall r, (r < Rn)%nat ->
  (forall f, (f < F)%nat -> exists o, (o < Fo)%nat /\ get (make_scopes F Fo Rn sizes perms) [f; o; r] = 1%nat /\
      forall o', (o' < Fo)%nat -> o' <> o -> get (make_scopes F Fo Rn sizes perms) [f; o'; r] = 0%nat) /\
  (forall o, (o < Fo)%nat ->
     let n := length (filter (fun f => get (make_scopes F Fo Rn sizes perms) [f; o; r] =? 1)%nat (seq 0 F)) in
     (0 < n)%nat /\ (n = F / Fo \/ n = F / Fo + 1)%nat).
Proof. exact make_scopes_partition. Qed.
Print Assumptions C16_scopes_balanced.
Example C16_ex : is_perm (ex_td_perm 1) 5 /\
  length (filter (fun f => get (make_scopes 5 4 2 [1; 2; 1; 1]%nat ex_td_perm) [f; 1; 1]%nat =? 1)%nat (seq 0 5)) = 2%nat.
Proof. split; [unfold ex_td_perm; cbn; perms|reflexivity]. Qed.
(** FactorizedLeafSimple (one repetition): every feature is in one group, groups are bounded, and they
    have equal sizes if the number of groups divides the number of features. *)
Theorem C16_simple_groups_partial : forall V (lf : bleaf V) Fo pl, (0 < Fo)%nat -> (0 < lf_F lf)%nat -> lf_R lf = 1%nat ->
  is_perm pl (lf_F lf + simple_dummy (lf_F lf) Fo) ->
  exists grp, forward_groups lf Fo (simple_forward lf Fo (vec pl)) (fun _ => grp) /\
  (forall f, (f < lf_F lf)%nat -> (grp f < Fo)%nat) /\
  forall d, (d < Fo)%nat ->
    let n := length (filter (fun f => grp f =? d)%nat (seq 0 (lf_F lf))) in
    (n <= (lf_F lf + (Fo - 1)) / Fo)%nat /\ (lf_F lf mod Fo = 0 -> n = lf_F lf / Fo)%nat.
Proof.
  intros V lf Fo pl H1 H2 H3 H4. exists (RefLeaf.simple_grp (lf_F lf) Fo pl). split; [apply simple_forward_groups; auto|].
  split; [intros f Hf; apply simple_grp_lt; auto|]. intros d Hd. exact (group_positions (lf_F lf) Fo pl d H1 H2 H4 Hd).
Qed.
Print Assumptions C16_simple_groups_partial.
(** The dummy features are shuffled too and may fill a whole group. *)
Theorem C16_simple_empty_refuted : forall V (lf : bleaf V) Fo, (0 < Fo)%nat -> (0 < lf_F lf)%nat -> lf_R lf = 1%nat -> (0 < lf_L lf)%nat -> (0 < lf_C lf)%nat ->
  (simple_card (lf_F lf) Fo <= simple_dummy (lf_F lf) Fo)%nat ->
  exists pl, is_perm pl (lf_F lf + simple_dummy (lf_F lf) Fo) /\
  forall grp, forward_groups lf Fo (simple_forward lf Fo (vec pl)) grp ->
  exists d, (d < Fo)%nat /\ forall f, (f < lf_F lf)%nat -> grp 0%nat f <> d.
Proof.
  intros V lf Fo H1 H2 H3 H4 H5 H6. destruct (empty_group (lf_F lf) Fo H1 H2 H6) as [P Z]. eexists. split; [exact P|]. intros grp Hg.
  exists (Fo - 1)%nat. split; [lia|]. intros f Hf E.
  pose proof (simple_forward_groups lf Fo _ H1 H2 H3 P) as Hs.
  assert (L: (RefLeaf.simple_grp (lf_F lf) Fo (seq 0 (lf_F lf + simple_dummy (lf_F lf) Fo)) f < Fo)%nat) by (apply simple_grp_lt; auto).
  pose proof (forward_groups_unique lf Fo _ _ grp H4 H5 Hs Hg 0%nat f ltac:(lia) Hf L) as U. rewrite E in U.
  unfold group_size in Z. apply length_zero_iff_nil in Z.
  assert (I: In f (filter (fun f => RefLeaf.simple_grp (lf_F lf) Fo (seq 0 (lf_F lf + simple_dummy (lf_F lf) Fo)) f =? Fo - 1)%nat (seq 0 (lf_F lf)))).
  { apply filter_In. split; [apply in_seq; lia|]. apply Nat.eqb_eq. auto. }
  rewrite Z in I. destruct I.
Qed.
Print Assumptions C16_simple_empty_refuted.
(** Five features in four groups. *)
Example C16_simple_ex : (simple_card 5 4 <= simple_dummy 5 4)%nat /\ lf_F (coin third 5 1 2 1) = 5%nat.
Proof. split; [cbn; lia|reflexivity]. Qed.

(** * C19: permutations *)
Theorem C19_invert_permutation : forall l n, is_perm l n ->
  is_perm (argsort l) n /\
  (forall i, (i < n)%nat -> nth (nth i l 0) (argsort l) 0 = i)%nat /\ (forall i, (i < n)%nat -> nth (nth i (argsort l) 0) l 0 = i)%nat.
Proof.
  intros l n H. split; [apply argsort_perm; auto|]. split; intros i Hi; [apply (argsort_left l n); auto|apply (argsort_nth l n); auto].
Qed.
Print Assumptions C19_invert_permutation.
(** Bottom-up: the forward pass moves feature f to position [pos r f] and sampling reads it from there. *)
Theorem C19_bottom_up : forall V g o (E : einet V) p q, accepted g o E -> e_perm E = Some (p, q) ->
  exists pos : nat -> nat -> nat,
   (forall r f, (r < e_R E)%nat -> (f < e_F E)%nat -> (pos r f < e_F E)%nat) /\
   (forall r f f', (r < e_R E)%nat -> (f < e_F E)%nat -> (f' < e_F E)%nat -> pos r f = pos r f' -> f = f') /\
   (forall N L x, shape x = [N; e_F E; L; e_R E] ->
      exists y, permute_reps (buffer (e_R E) (e_F E) p) (e_R E) x = Ok y /\ shape y = [N; e_F E; L; e_R E] /\
      forall n f l r, (n < N)%nat -> (f < e_F E)%nat -> (l < L)%nat -> (r < e_R E)%nat -> get y [n; pos r f; l; r] = get x [n; f; l; r]) /\
   (forall N (c : sctx), shape (c_out c) = [N; e_F E] -> shape (c_rep c) = [N] -> (forall n, (n < N)%nat -> (get (c_rep c) [n] < e_R E)%nat) ->
      exists c', unpermute E c = Ok c' /\ shape (c_out c') = [N; e_F E] /\ c_rep c' = c_rep c /\
      forall n f, (n < N)%nat -> (f < e_F E)%nat -> get (c_out c') [n; f] = get (c_out c) [n; pos (get (c_rep c) [n]) f]).
Proof.
  intros V g o E p q HA Ep. apply (perms_inverse E p q); auto. pose proof (eo_ll E (accepted_ok g o E HA)) as H. unfold leaf_layer_ok in H.
  destruct (e_leaf E); rewrite Ep in H; try tauto.
Qed.
Print Assumptions C19_bottom_up.
Example C19_ex : argsort [4; 2; 0; 3; 1]%nat = [2; 4; 1; 3; 0]%nat /\
  exists g o (E : einet nat) p q, accepted g o E /\ e_perm E = Some (p, q) /\ p 1%nat = [4; 2; 0; 3; 1]%nat.
Proof.
  split; [reflexivity|]. destruct ex_bu as (E & A & _). exists ex_bu_g, ex_bu_o, E, ex_td_perm, (fun i => argsort (ex_td_perm i)). split; [exact A|]. split; [|reflexivity].
  pose proof (ac_build _ _ _ A) as HE. unfold build in HE. apply bind_ok in HE as ([] & _ & HE). cbn [ex_bu_g plain g_struct] in HE. unfold build_bottom_up in HE.
  apply bind_ok in HE as (? & _ & HE). apply bind_ok in HE as (? & _ & HE). apply bind_ok in HE as (? & _ & HE).
  apply bind_ok in HE as (? & _ & HE). apply bind_ok in HE as (? & _ & HE). apply bind_ok in HE as (lf & Hl & HE).
  apply bind_ok in HE as (? & _ & HE). apply bind_ok in HE as (? & _ & HE). inversion HE. reflexivity.
Qed.

(** * C20: construction *)
(** Exactly these of the accepted configurations can be constructed.  [drop_ok d]: d is a float with
    0 <= d < 1; the rate is not used by a one-repetition network of einsum layers. *)
Theorem C20_constructible_partial : forall V g (o : oracle V), assert_valid g = Ok tt -> g_card g = None -> oracle_ok g o ->
  ((exists E, build g o = Ok E) <->
   (0 <= zval (g_depth g))%Z /\ (g_struct g = SBottomUp -> (0 < zval (g_depth g))%Z) /\
   (~ (g_layer g = TEinsum /\ (0 < zval (g_depth g))%Z /\ nval (g_R g) = 1%nat) -> drop_ok (g_drop g))).
Proof. intros V g o. exact (build_iff g o). Qed.
Print Assumptions C20_constructible_partial.
(** The constructed network has the requested sizes and its layers fit: every batch passes through. *)
Theorem C20_sizes_fit : forall V g o (E : einet V), accepted g o E ->
  e_F E = nval (g_F g) /\ e_C E = nval (g_C g) /\ e_R E = nval (g_R g) /\ e_K E = nval (g_K g) /\
  forall N x, batch E N x -> exists y, forward E x None = Ok y /\ shape y = [N; nval (g_K g)].
Proof.
  intros V g o E HA. destruct (build_inv g o E (ac_card _ _ _ HA) (ac_oracle _ _ _ HA) (ac_build _ _ _ HA)) as (_ & H1 & H2 & H3 & H4).
  repeat (split; [assumption|]). intros N x Hb. destruct (C05_forward_total V g o E N x HA Hb) as (y & Ey & Sy & _). rewrite <- H4. eauto.
Qed.
Print Assumptions C20_sizes_fit.
Example C20_ex : assert_valid ex_td_g = Ok tt /\ oracle_ok ex_td_g ex_td_o /\ exists E, build ex_td_g ex_td_o = Ok E.
Proof.
  split; [apply plain_valid; try lia; try lra; try congruence; simpl; lia|]. split; [apply ex_td_oracle|].
  destruct ex_td as (E & A & _). exists E. apply A.
Qed.
Definition with_depth (d : Z) (t : ltype) (s : stype) (drop : pyval) : config :=
  mkConfig (VInt 4) (VInt 1) (VInt 3) (VInt 2) (VInt 2) (VInt 1) (VInt d) drop LeafClass None t s.
(** depth = -1 is accepted although the check asks for at least 0. *)
Theorem C20_negative_depth_refuted : exists g, assert_valid g = Ok tt /\ forall V (o : oracle V), build g o = Err IndexErr.
Proof.
  exists (with_depth (-1) TEinsum STopDown (VFloat (Fin 0))).
  assert (A: assert_valid (with_depth (-1) TEinsum STopDown (VFloat (Fin 0))) = Ok tt).
  { unfold assert_valid, with_depth. cbn [g_depth g_F g_C g_K g_S g_R g_L g_drop g_leaf g_layer g_struct g_card].
    rewrite (check_int_ok (VInt 4) 2 (Fin (IZR 4))); [|constructor|cbn; lia].
    rewrite !(check_int_ok (VInt 1) 1 (Fin (IZR 1))); [|constructor|cbn; lia..].
    rewrite (check_int_ok (VInt 3) 1 (Fin (IZR 3))); [|constructor|cbn; lia].
    rewrite !(check_int_ok (VInt 2) 1 (Fin (IZR 2))); [|constructor|cbn; lia..].
    rewrite check_valid_zero_lower_float by lra. reflexivity. }
  split; [exact A|]. intros V o. unfold build. rewrite A. reflexivity.
Qed.
Print Assumptions C20_negative_depth_refuted.
(** A bottom-up network of depth 0 is accepted but cannot be built. *)
Theorem C20_flat_bottom_up_refuted : exists g, assert_valid g = Ok tt /\ g_struct g = SBottomUp /\ zval (g_depth g) = 0%Z /\
  forall V (o : oracle V) E, build g o <> Ok E.
Proof.
  exists (plain 4 1 3 2 2 1 0 0 TLinsum SBottomUp).
  split; [apply plain_valid; try lia; try lra; try congruence; simpl; lia|]. split; [reflexivity|]. split; [reflexivity|].
  intros V o E H. pose proof (fun e => constructible_only _ o E e H) as HC; destruct (HC eq_refl) as (_ & B & _). specialize (B eq_refl). cbn in B. lia.
Qed.
Print Assumptions C20_flat_bottom_up_refuted.
(** dropout=None is accepted, but the layers reject it; so is a negative rate. *)
Lemma with_depth_valid drop v : check_valid drop TFloat (BFloat (Fin 0)) (BFloat (Fin 1)) true = Ok v -> assert_valid (with_depth 1 TLinsum STopDown drop) = Ok tt.
Proof.
  intros H. unfold assert_valid, with_depth. cbn [g_depth g_F g_C g_K g_S g_R g_L g_drop g_leaf g_layer g_struct g_card].
  rewrite (check_int_ok (VInt 4) 2 (Fin (IZR 4))); [|constructor|cbn; lia].
  rewrite (check_int_ok (VInt 1) 0 (Fin (IZR 1))); [|constructor|cbn; lia..].
  rewrite !(check_int_ok (VInt 1) 1 (Fin (IZR 1))); [|constructor|cbn; lia..].
  rewrite (check_int_ok (VInt 3) 1 (Fin (IZR 3))); [|constructor|cbn; lia].
  rewrite !(check_int_ok (VInt 2) 1 (Fin (IZR 2))); [|constructor|cbn; lia..]. cbn [bind]. rewrite H. reflexivity.
Qed.
Theorem C20_no_dropout_refuted : exists g, assert_valid g = Ok tt /\ g_drop g = VNone /\ forall V (o : oracle V) E, build g o <> Ok E.
Proof.
  exists (with_depth 1 TLinsum STopDown VNone). split; [apply (with_depth_valid VNone VNone); reflexivity|]. split; [reflexivity|].
  intros V o E H. pose proof (fun e => constructible_only _ o E e H) as HC; destruct (HC eq_refl) as (_ & _ & D).
  destruct D as (x & Hn & _); [intros (X & _); discriminate|]. inversion Hn.
Qed.
Print Assumptions C20_no_dropout_refuted.
Theorem C20_negative_dropout_refuted : exists g, assert_valid g = Ok tt /\ g_drop g = VFloat (Fin (-1)) /\ forall V (o : oracle V) E, build g o <> Ok E.
Proof.
  exists (with_depth 1 TLinsum STopDown (VFloat (Fin (-1)))). split; [eapply with_depth_valid; apply check_valid_zero_lower_float; lra|]. split; [reflexivity|].
  intros V o E H. pose proof (fun e => constructible_only _ o E e H) as HC; destruct (HC eq_refl) as (_ & _ & D).
  destruct D as (x & Hn & Hx); [intros (X & _); discriminate|]. inversion Hn; subst. lra.
Qed.
Print Assumptions C20_negative_dropout_refuted.

(** * C26: pairs *)
(** Position i * sin + j of the sampled distribution is the pair (i, j) and is routed to the two
    neighbours. *)
Theorem C26_einsum_routes : forall V L c N, einsum_ok L -> c_tsum c <> 0 -> context_ok c N (nf L / 2) (sout L) (nrep L) ->
  exists lw route, @einsum_sample V L None c = mbind (choose c lw) route /\ shape lw = [N; nf L / 2; sin L * sin L]%nat /\
  (forall n d i j, (n < N)%nat -> (d < nf L / 2)%nat -> (i < sin L)%nat -> (j < sin L)%nat ->
     get lw [n; d; i * sin L + j]%nat =
     Fin (ln (pair_weight L (c_tsum c) d (get (c_out c) [n; d]) (get (c_rep c) [n]) i j))) /\
  forall k, shape k = [N; nf L / 2]%nat ->
    (forall n d, (n < N)%nat -> (d < nf L / 2)%nat -> (get k [n; d] < sin L * sin L)%nat) ->
    exists o, route k = Ret (set_out c o) /\ shape o = [N; nf L] /\
    forall n d i j, (n < N)%nat -> (d < nf L / 2)%nat -> (i < sin L)%nat -> (j < sin L)%nat ->
      get k [n; d] = (i * sin L + j)%nat -> get o [n; 2 * d]%nat = i /\ get o [n; 2 * d + 1]%nat = j.
Proof. intros V. exact einsum_routes. Qed.
Print Assumptions C26_einsum_routes.
Definition ex_einsum : slay := mkL 4 3 2 2 (mkT (einsum_weight_shape (mkL 4 3 2 2 (mkT [] grow))) grow).
Definition ex_context : sctx := mkCtx 5 (mkT [5; 2]%nat (fun idx => nth 0 idx 0 mod 2))%nat (mkT [5]%nat (fun idx => nth 0 idx 0 mod 2))%nat false 1.
Example C26_ex : einsum_ok ex_einsum /\ context_ok ex_context 5 2 2 2.
Proof.
  split.
  - unfold einsum_ok, lfin. cbn [ex_einsum sin sout nrep nf logits]. repeat split; try lia; try reflexivity.
  - repeat split; try reflexivity; try lia; intros; cbn [ex_context c_out c_rep get]; apply Nat.mod_upper_bound; lia.
Qed.

(** * C27: odd feature counts *)
(** The last output feature of a layer with an odd number of inputs has one child. *)
Theorem C27_linsum_padding_partial : forall L x N, linsum_ok L -> values x N (nf L) (sin L) (nrep L) ->
  exists y ca, linsum_forward L None x = Ok (y, ca) /\ shape y = [N; (nf L + 1) / 2; sout L; nrep L]%nat /\
  forall n d o r, (n < N)%nat -> (d < (nf L + 1) / 2)%nat -> (o < sout L)%nat -> (r < nrep L)%nat ->
    get y [n; d; o; r] = Fin (ln (rsum (sin L) (fun k => chan_weight L 1 d o r k * vexp x n (2 * d) k r *
      if (2 * d + 1 <? nf L)%nat then vexp x n (2 * d + 1) k r else 1))).
Proof. exact linsum_padding. Qed.
Print Assumptions C27_linsum_padding_partial.
Theorem C27_linsum2_padding_partial : forall L x N, linsum2_ok L -> values x N (nf L) (sin L) (nrep L) ->
  exists y ca, linsum2_forward L None x = Ok (y, ca) /\ shape y = [N; (nf L + 1) / 2; sout L; nrep L]%nat /\
  forall n d o r, (n < N)%nat -> (d < (nf L + 1) / 2)%nat -> (o < sout L)%nat -> (r < nrep L)%nat ->
    get y [n; d; o; r] = Fin (ln (rsum (sin L) (fun k => chan_weight L 1 (2 * d) o r k * vexp x n (2 * d) k r) *
      if (2 * d + 1 <? nf L)%nat then rsum (sin L) (fun k => chan_weight L 1 (2 * d + 1) o r k * vexp x n (2 * d + 1) k r) else 1)).
Proof. exact linsum2_padding. Qed.
Print Assumptions C27_linsum2_padding_partial.
(** One index per input feature. *)
Theorem C27_linsum_routes_partial : forall V L c N, linsum_ok L -> c_tsum c <> 0 -> context_ok c N ((nf L + 1) / 2) (sout L) (nrep L) ->
  exists lw route, @linsum_sample V L None c = mbind (choose c lw) route /\ shape lw = [N; (nf L + 1) / 2; sin L]%nat /\
  (forall n d k, (n < N)%nat -> (d < (nf L + 1) / 2)%nat -> (k < sin L)%nat ->
     get lw [n; d; k] = Fin (ln (chan_weight L (c_tsum c) d (get (c_out c) [n; d]) (get (c_rep c) [n]) k))) /\
  forall k, shape k = [N; (nf L + 1) / 2]%nat ->
    (forall n d, (n < N)%nat -> (d < (nf L + 1) / 2)%nat -> (get k [n; d] < sin L)%nat) ->
    exists o, route k = Ret (set_out c o) /\ shape o = [N; nf L] /\
    forall n f, (n < N)%nat -> (f < nf L)%nat -> get o [n; f] = get k [n; f / 2]%nat.
Proof. intros V. exact linsum_routes. Qed.
Print Assumptions C27_linsum_routes_partial.
(** LinsumLayer2 returns one index too few. *)
Theorem C27_linsum2_sample_refuted : forall V L c N, linsum2_ok L -> nf L mod 2 = 1%nat -> c_tsum c <> 0 ->
  context_ok c N ((nf L + 1) / 2) (sout L) (nrep L) ->
  exists lw route, @linsum2_sample V L None c = mbind (choose c lw) route /\ shape lw = [N; nf L; sin L] /\
  forall k, shape k = [N; nf L] -> exists o, route k = Ret (set_out c o) /\ shape o = [N; nf L - 1]%nat.
Proof. intros V. exact linsum2_odd_sample. Qed.
Print Assumptions C27_linsum2_sample_refuted.
(** A LinsumLayer on a single feature has an empty output. *)
Theorem C27_single_feature_refuted : forall L x N, nf L = 1%nat ->
  shape (logits L) = linsum_weight_shape L -> shape x = [N; 1; sin L; nrep L]%nat ->
  exists y ca, linsum_forward L None x = Ok (y, ca) /\ shape y = [N; 0; sout L; nrep L]%nat.
Proof. exact linsum_single. Qed.
Print Assumptions C27_single_feature_refuted.
Definition ex_linsum : slay := mkL 5 3 2 2 (mkT (linsum_weight_shape (mkL 5 3 2 2 (mkT [] grow))) grow).
Definition ex_linsum2 : slay := mkL 3 3 2 2 (mkT (linsum2_weight_shape (mkL 3 3 2 2 (mkT [] grow))) grow).
Example C27_ex : linsum_ok ex_linsum /\ values (mkT [7; 5; 3; 2]%nat grow) 7 5 3 2 /\ linsum2_ok ex_linsum2 /\ context_ok ex_context 5 ((3 + 1) / 2) 2 2.
Proof.
  split; [|split; [|split]].
  - unfold linsum_ok, lfin. cbn [ex_linsum sin sout nrep nf logits]. repeat split; try lia; try reflexivity.
  - split; [reflexivity|]. intros. eexists. reflexivity.
  - unfold linsum2_ok, lfin. cbn [ex_linsum2 sin sout nrep nf logits]. repeat split; try lia; try reflexivity.
  - apply C26_ex.
Qed.
