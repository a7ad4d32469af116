(** C11 (caller's tensors), C22-C24: histories of calls on one network object. *)
From Coq Require Import List Arith Lia Bool ZArith Reals Lra Permutation.
Import ListNotations.
From Verif Require Import Base RSum Num Tensor Prob Layers Circuit Net RefFwd Leaf RefLeaf TypeChecks Einet RefNet RefEinet RefEinetS RefSample RefLaw RefLeafS RefMpe Build RefBuild Spec RefSpec RefSpecS RefMore RefPack Ex ExBad State RefState Heap RefHeap PropForward PropSample.
Local Open Scope R_scope.

(** * C11: tensors of the caller *)
(** The forward pass on the evidence and the final merge, on a heap of tensors with views and in-place
    writes: no existing tensor changes (evidence, caches, anything else), and both compute what [forward]
    and [merge_evidence] say. *)
Theorem C11_tensors_kept : forall V g o (E : einet V) h ev ms (s : tensor V) f32,
  accepted g o E -> (r_loc ev < length (h_data h))%nat ->
  let p := hp_forward E h ev ms None in
  let q := hp_merge (fst p) ev ms s f32 in
  (forall r, (r_loc r < length (h_data h))%nat -> read_data (fst q) r = read_data h r) /\
  (forall r, (r_loc r < length (h_num h))%nat -> read_num (fst q) r = read_num h r) /\
  (t <- snd p ;; Ok (snd t)) = forward E (read_data h ev) ms /\
  match merge_evidence (read_data h ev) ms s with
  | Ok t => exists r, snd q = Ok r /\ (length (h_data h) <= r_loc r)%nat /\ r_shape r = shape t /\ forall i, inb (shape t) i -> get (read_data (fst q) r) i = get t i
  | Err e => snd q = Err e
  end.
Proof.
  intros V g o E h ev ms s f32 HA Hev p q. pose proof (eo_ll E (accepted_ok _ _ _ HA)) as Hll.
  assert (HP: match e_leaf E with LBase _ => True | _ => e_perm E = None end).
  { unfold leaf_layer_ok in Hll. destruct (e_leaf E), (e_perm E); auto; contradiction. }
  destruct (hp_forward_spec E h ev ms None Hev HP) as (G1 & E1 & _); [discriminate|]. fold p in G1, E1.
  pose proof (grows_len _ _ G1) as [L1 L2].
  destruct (hp_merge_spec (fst p) ev ms s f32) as (G2 & E2); [lia|]. fold q in G2, E2.
  assert (G: grows h (fst q)) by (eapply grows_trans; eauto).
  split; [intros r Hr; apply (grows_read_data _ _ _ G Hr)|]. split; [intros r Hr; apply (grows_read_num _ _ _ G Hr)|].
  split; [rewrite E1, forward_after_leaf; reflexivity|].
  rewrite (grows_read_data _ _ _ G1 Hev) in E2. destruct (merge_evidence _ _ _); auto.
  destruct E2 as (r & A & B & C & D). exists r. repeat split; auto. lia.
Qed.
Print Assumptions C11_tensors_kept.
(** The leaf cache holds a reference to the leaf output; a later call on the cached entry does not change it. *)
Theorem C22_cached_tensor_kept : forall V g o (E : einet V) h x ms hit,
  accepted g o E -> (r_loc x < length (h_data h))%nat -> (r_loc hit < length (h_num h))%nat ->
  read_num (fst (hp_forward E h x ms (Some hit))) hit = read_num h hit.
Proof.
  intros V g o E h x ms hit HA Hx Hh. pose proof (eo_ll E (accepted_ok _ _ _ HA)) as Hll.
  assert (HP: match e_leaf E with LBase _ => True | _ => e_perm E = None end).
  { unfold leaf_layer_ok in Hll. destruct (e_leaf E), (e_perm E); auto; contradiction. }
  destruct (hp_forward_spec E h x ms (Some hit) Hx HP) as (G1 & _ & _); [intros r H; inversion H; subst; auto|].
  apply (grows_read_num _ _ _ G1 Hh).
Qed.
Print Assumptions C22_cached_tensor_kept.

(** * C22: the leaf cache *)
(** After any history in which an index always stands for the same data (until reset_cache) and the leaf
    parameters change only while the cache is empty, a cached call returns what an uncached one returns.
    Missing: histories that are not [well_used]; there the property is false, see below. *)
Theorem C22_cache_partial : forall V G (seeding : Z -> G) draw drawl (E : einet V) g cs x ms i,
  well_used E (fun _ => None) (cs ++ [Forward x ms (Some i)]) ->
  let o := fst (fst (history seeding draw drawl (fresh E, g) cs)) in
  snd (st_forward o x ms (Some i)) = forward (o_net o) x ms.
Proof.
  intros V G seeding draw drawl E g cs x ms i Hw. apply (history_cached seeding draw drawl cs (fresh E) g (fun _ => None) x ms i); auto.
  intros j y H. discriminate H.
Qed.
Print Assumptions C22_cache_partial.
(** The index alone decides: after a successful cached call, whatever data of the right shape and whatever
    scopes come with the same index, the answer is the old one. *)
Theorem C22_index_decides : forall V (E : einet V) x ms i y x' ms' z,
  forward E x ms = Ok y -> prepare E x' = Ok z ->
  snd (st_forward (fst (st_forward (fresh E) x ms (Some i))) x' ms' (Some i)) = Ok y.
Proof.
  intros V E x ms i y x' ms' z Hy Hz. rewrite st_forward_result.
  destruct (st_forward_state (fresh E) x ms (Some i)) as (N & _ & L & _). rewrite N. cbn [fresh o_net]. rewrite Hz. cbn [bind].
  rewrite forward_upper_eq in Hy. destruct (prepare E x) as [w|] eqn:Ew; [|discriminate]. cbn [bind] in Hy.
  destruct (leaf_forward (e_leaf E) w ms) as [v|] eqn:El; [|discriminate].
  cbn [fresh o_net] in L. rewrite Ew in L. unfold leafs_after, cached in L. cbn [fresh o_leaf o_net lookup] in L. rewrite El in L.
  unfold cached. rewrite L. cbn [lookup]. rewrite Nat.eqb_refl. cbn [leaf_result]. exact Hy.
Qed.
Print Assumptions C22_index_decides.
(** exp of entry [0, 0] of an answer. *)
Definition answer (r : res (tensor num)) : R := match r with Ok y => pval (get y [0; 0]%nat) | Err _ => 0 end.
Lemma answer_forward {V} (E : einet V) x ms : answer (forward E x ms) = lik E x ms 0 0.
Proof. reflexivity. Qed.
Lemma bad4_row x : (forall c f, (x c f < 2)%nat) -> batch bad4 1 (one_row 1 2 x).
Proof.
  intros H. apply (one_row_batch bad4 2 (coin_discrete _ 2 1 2 1 bad4_p_ok)). intros; apply H.
Qed.
Lemma zeros_lt c f : (zeros c f < 2)%nat.
Proof. unfold zeros. lia. Qed.
Lemma other_lt c f : (other c f < 2)%nat.
Proof. unfold other. destruct (f =? 0)%nat; lia. Qed.
Lemma bad4_forward x : (forall c f, (x c f < 2)%nat) -> exists y, forward bad4 (one_row 1 2 x) None = Ok y.
Proof. intros H. destruct (C05_forward_total _ _ _ bad4 1 (one_row 1 2 x) bad4_accepted (bad4_row x H)) as (y & Ey & _). eauto. Qed.
(** A cached call with other data: 23/80 instead of 37/80. *)
Theorem C22_other_data_refuted : exists g o (E : einet nat) x x',
  accepted g o E /\ batch E 1 x /\ batch E 1 x' /\
  answer (snd (st_forward (fst (st_forward (fresh E) x None (Some 0%nat))) x' None (Some 0%nat))) <> lik E x' None 0 0.
Proof.
  exists bad4_g, bad4_o, bad4, (one_row 1 2 zeros), (one_row 1 2 other). split; [exact bad4_accepted|].
  split; [apply bad4_row, zeros_lt|]. split; [apply bad4_row, other_lt|].
  destruct (bad4_forward zeros zeros_lt) as [y Hy]. rewrite (C22_index_decides _ bad4 _ None 0 y (one_row 1 2 other) None _ Hy eq_refl).
  rewrite <- Hy, answer_forward, bad4_lik, bad4_lik_other. lra.
Qed.
Print Assumptions C22_other_data_refuted.
(** The same data with other marginalized scopes: 23/80 instead of 3/4. *)
Lemma bad4_lik_scope : lik bad4 (one_row 1 2 zeros) (Some [0%nat]) 0 0 = 3/4.
Proof.
  pose proof (accepted_ok _ _ _ bad4_accepted) as HE.
  rewrite (lik_eval bad4 HE 1 _ _ 0 0); [| |lia|cbn; lia].
  - bad4_eval. rewrite !coin_pdf by apply bad4_p_ok. unfold bad4_p. cbn. field.
  - apply batch_input_ms; [apply bad4_row, zeros_lt|]. split.
    + intros f [<-|[]]. cbn. lia.
    + intros. discriminate.
Qed.
Theorem C22_other_scopes_refuted : exists g o (E : einet nat) x s,
  accepted g o E /\ batch E 1 x /\ scopes_ok E 1 x s /\
  answer (snd (st_forward (fst (st_forward (fresh E) x None (Some 0%nat))) x (Some s) (Some 0%nat))) <> lik E x (Some s) 0 0.
Proof.
  exists bad4_g, bad4_o, bad4, (one_row 1 2 zeros), [0%nat]. split; [exact bad4_accepted|].
  split; [apply bad4_row, zeros_lt|]. split. { split; [intros f [<-|[]]; cbn; lia|intros; discriminate]. }
  destruct (bad4_forward zeros zeros_lt) as [y Hy]. rewrite (C22_index_decides _ bad4 _ None 0 y (one_row 1 2 zeros) (Some [0%nat]) _ Hy eq_refl).
  rewrite <- Hy, answer_forward, bad4_lik, bad4_lik_scope. lra.
Qed.
Print Assumptions C22_other_scopes_refuted.
(** The leaf parameters change between two cached calls on the same data: 23/80 instead of 1/4. *)
Definition fair (_ : list nat) : R := 1/2.
Lemma fair_ok key : 0 < fair key < 1.
Proof. unfold fair. lra. Qed.
Definition bad5_o : oracle nat :=
  mkOracle (fun _ => pair_logits (fun _ => true)) zero_logits zero_logits zero_logits [1; 1]%nat (fun _ => [0; 1]%nat) (fun F C L R => Ok (coin fair F C L R)).
Definition bad5 : einet nat :=
  mkE 2 1 2 1 1 (LSimple (coin fair 2 1 2 1) 2 [0; 1]%nat (argsort [0; 1]%nat)) None [LEin bad4_L] None None.
Lemma bad5_accepted : accepted bad4_g bad5_o bad5.
Proof.
  split; [reflexivity| |].
  - split; try (intros; reflexivity).
    + intros; apply pair_logits_fin.
    + intros r Hr. unfold perm_len, groups_of. cbn [bad4_g plain g_struct g_R g_F g_depth]. rewrite !nval_nat. cbn [Nat.eqb]. apply Permutation_refl.
    + eexists. split; [reflexivity|]. split; [apply coin_ok|]. repeat split.
  - unfold bad4_g. rewrite plain_build by (try lia; try lra; try congruence; simpl; lia).
    unfold build_top_down. cbn [plain g_depth g_F g_C g_L g_R g_K g_S g_layer g_struct g_drop]. rewrite !nval_nat.
    cbn [seq mapM]. unfold top_layer. cbn [g_depth g_layer g_S g_L g_K g_R g_drop plain]. rewrite !nval_nat. cbn [Nat.ltb Nat.leb Nat.eqb].
    unfold new_intermediate. rewrite new_layer_ok; [|simpl; lia..|apply no_drop_ok]. cbn [bind zval Z.of_nat Z.eqb rev app].
    cbn [layer_nf nf]. unfold build_input, build_mixing, build_root. cbn [g_F g_C g_L g_R g_K g_drop plain]. rewrite !nval_nat.
    cbn [Nat.ltb Nat.leb Nat.eqb bind o_leaf bad5_o]. reflexivity.
Qed.
Lemma bad5_lik : lik bad5 (one_row 1 2 zeros) None 0 0 = 1/4.
Proof.
  pose proof (accepted_ok _ _ _ bad5_accepted) as HE.
  pose proof (lik_one_row bad5 HE 2 (coin_discrete _ 2 1 2 1 fair_ok) zeros 0) as H.
  cbn [bad5 e_C e_F e_K] in H. rewrite H by (auto; intros; unfold zeros; lia). clear H.
  unfold bad5. fold bad4_L. bad4_eval; unfold zeros; rewrite !coin_pdf by apply fair_ok; unfold fair; cbn; field.
Qed.
Theorem C22_update_refuted : exists g o o' (E E' : einet nat) x,
  accepted g o E /\ accepted g o' E' /\ batch E 1 x /\ batch E' 1 x /\ e_layers E' = e_layers E /\
  forall G (seeding : Z -> G) draw drawl rng,
  let h := [Forward x None (Some 0%nat); Update E'] in
  answer (snd (st_forward (fst (fst (history seeding draw drawl (fresh E, rng) h))) x None (Some 0%nat))) <> lik E' x None 0 0.
Proof.
  exists bad4_g, bad4_o, bad5_o, bad4, bad5, (one_row 1 2 zeros). split; [exact bad4_accepted|]. split; [exact bad5_accepted|].
  split; [apply bad4_row, zeros_lt|]. split.
  { apply (one_row_batch bad5 2 (coin_discrete _ 2 1 2 1 fair_ok)). intros; apply zeros_lt. }
  split; [reflexivity|]. intros G seeding draw drawl rng h. unfold h. cbn [history exec].
  destruct (st_forward_state (fresh bad4) (one_row 1 2 zeros) None (Some 0%nat)) as (N & _ & L & _).
  destruct (st_forward (fresh bad4) (one_row 1 2 zeros) None (Some 0%nat)) as [o1 r1]. cbn [fst snd exec] in *.
  rewrite st_forward_result. cbn [o_net]. change (prepare bad5 (one_row 1 2 zeros)) with (Ok (one_row 1 2 zeros)). cbn [bind].
  unfold cached. cbn [o_leaf]. rewrite L. cbn [fresh o_net]. change (prepare bad4 (one_row 1 2 zeros)) with (Ok (one_row 1 2 zeros)). cbn [bind].
  destruct (bad4_forward zeros zeros_lt) as [y Hy]. pose proof Hy as Hy'. rewrite forward_upper_eq in Hy.
  change (prepare bad4 (one_row 1 2 zeros)) with (Ok (one_row 1 2 zeros)) in Hy. cbn [bind] in Hy.
  unfold leafs_after, cached. cbn [fresh o_leaf o_net lookup].
  destruct (leaf_forward (e_leaf bad4) (one_row 1 2 zeros) None) as [v|]; [|discriminate]. cbn [lookup Nat.eqb leaf_result].
  change (upper bad5 (Ok v)) with (upper bad4 (Ok v)). rewrite Hy, <- Hy', answer_forward, bad4_lik, bad5_lik. lra.
Qed.
Print Assumptions C22_update_refuted.
(** A history that is [well_used]: two indices, a reset, the same index for other data. *)
Example C22_ex : exists g o (E : einet nat) x x' cs, accepted g o E /\ x <> x' /\
  cs = [Forward x None (Some 0%nat); Forward x' None (Some 1%nat); Sample sample1 None; ResetCache; Forward x' (Some [1%nat]) (Some 0%nat)] /\
  forall G (seeding : Z -> G) draw drawl rng,
  snd (st_forward (fst (fst (history seeding draw drawl (fresh E, rng) cs))) x' (Some [1%nat]) (Some 0%nat)) =
  forward (o_net (fst (fst (history seeding draw drawl (fresh E, rng) cs)))) x' (Some [1%nat]).
Proof.
  eexists bad4_g, bad4_o, bad4, (one_row 1 2 zeros), (one_row 1 2 other), _. split; [exact bad4_accepted|]. split.
  { intros H. apply (f_equal (fun t => get t [0; 0; 0]%nat)) in H. discriminate H. }
  split; [reflexivity|]. intros. apply C22_cache_partial. cbn. split; [intros; discriminate|]. split; [intros; discriminate|]. split; [intros; discriminate|].
  split; [|exact I]. intros x' ms' H. inversion H; subst. auto.
Qed.

(** * C23: sampling leaves no trace *)
(** After any history in which no evidence call raised from inside the sampling context, every call without
    a cache index answers as a new object with the same parameters does.
    Missing: histories with such an exception; there the property is false, see below. *)
Theorem C23_no_trace_partial : forall V G (seeding : Z -> G) draw drawl (E : einet V) g cs,
  all_well seeding draw drawl (fresh E, g) cs ->
  let s := fst (history seeding draw drawl (fresh E, g) cs) in
  (forall a seed g', snd (st_sample seeding draw drawl (fst s) g' a seed) = snd (st_sample seeding draw drawl (fresh (o_net (fst s))) g' a seed)) /\
  (forall a seed g', snd (st_sample seeding draw drawl (fst s) g' a seed) =
     fst (run draw drawl (e_leaf (o_net (fst s))) (sample (o_net (fst s)) a) (match seed with Some z => seeding z | None => g' end))) /\
  (forall x ms, snd (st_forward (fst s) x ms None) = forward (o_net (fst s)) x ms).
Proof.
  intros V G seeding draw drawl E g cs Hw s. pose proof (history_clean seeding draw drawl cs (fresh E) g (fresh_clean E) Hw) as Hc. fold s in Hc.
  assert (A: forall o a seed g', clean o -> snd (st_sample seeding draw drawl o g' a seed) =
     fst (run draw drawl (e_leaf (o_net o)) (sample (o_net o) a) (match seed with Some z => seeding z | None => g' end))).
  { intros o a seed g' H. apply (st_sample_clean seeding draw drawl o g' a seed H). }
  split; [|split].
  - intros a seed g'. rewrite (A _ a seed g' Hc), (A _ a seed g' (fresh_clean _)). reflexivity.
  - intros a seed g'. apply A. exact Hc.
  - intros x ms. rewrite st_forward_result, forward_upper_eq. reflexivity.
Qed.
Print Assumptions C23_no_trace_partial.
(** A call with evidence outside the support raises and leaves the caches switched on; a later forward pass
    on [x] fills them; then sampling is done with the caches of [x], whatever the arguments. *)
Theorem C23_conditioned_on_old_data : forall V G (seeding : Z -> G) draw drawl (E : einet V) g bad a0 x y cs a,
  a_ev a0 = Some bad -> check_args E a0 = Ok tt -> (exists e z, prepare E bad = Ok z /\ leaf_forward (e_leaf E) z (a_ms a0) = Err e) ->
  forward_full E x None = Ok (y, cs) ->
  a_ev a = None -> check_args E a = Ok tt ->
  let h := [Sample a0 None; Forward x None None] in
  let o := fst (fst (history seeding draw drawl (fresh E, g) h)) in
  forall g', snd (st_sample seeding draw drawl o g' a None) = fst (run draw drawl (e_leaf E) (body E a cs) g').
Proof.
  intros V G seeding draw drawl E g bad a0 x y cs a H0 C0 (e & z & Hz & He) Hx Ha Ca h o g'.
  assert (Ho: exists g1, fst (history seeding draw drawl (fresh E, g) h) = (mkObj E [] true (ca_layers cs) (ca_mixing cs), g1)).
  { assert (S1: st_sample seeding draw drawl (fresh E) g a0 None = ((mkObj E [] true (map (fun _ => None) (e_layers E)) None, g), Err e)).
    { unfold st_sample. cbn [fresh o_net]. rewrite C0. unfold enter. rewrite H0. unfold st_forward. cbn [fresh o_net o_leaf o_ins o_mix o_on].
      rewrite Hz, He. reflexivity. }
    unfold h. cbn [history exec]. rewrite S1. cbn [exec].
    rewrite (st_forward_on (mkObj E [] true (map (fun _ => None) (e_layers E)) None) x None y cs eq_refl eq_refl Hx). eexists. reflexivity. }
  destruct Ho as [g1 Ho]. unfold o. rewrite Ho. cbn [fst]. unfold st_sample. cbn [o_net]. rewrite Ca. unfold enter. rewrite Ha. cbn [o_net o_on o_ins o_mix used_caches].
  destruct cs as [cl cm]. cbn [ca_layers ca_mixing used_caches o_on]. destruct (run _ _ _ _ g') as [[t|e'] g2]; reflexivity.
Qed.
Print Assumptions C23_conditioned_on_old_data.

(** One row of old data and two unconditional samples: the call raises, on a new object it does not. *)
Definition five : nat -> nat -> nat := fun _ _ => 5%nat.
Definition bad_call : sargs (V := nat) := mkArgs None CNone (Some (one_row 1 2 five)) false false 1 None.
Definition two_samples : sargs (V := nat) := mkArgs (Some 2%nat) CNone None true false 1 None.
Lemma bad4_two : exists t, sample bad4 two_samples = Ret t.
Proof.
  pose proof (accepted_ok _ _ _ bad4_accepted) as HE.
  rewrite (sample_core bad4 two_samples (no_caches bad4) eq_refl eq_refl). unfold core.
  assert (W: walk bad4 two_samples (no_caches bad4) = einsum_sample bad4_L None (init_ctx two_samples)) by reflexivity.
  rewrite W. clear W.
  pose proof (eo_layers bad4 HE) as Hok. cbn [bad4 e_layers layers_ok layer_ok] in Hok. destruct Hok as [[Hok _] _].
  assert (H2: (0 < 2)%nat) by lia.
  destruct (@einsum_sampler nat bad4_L 2 None vone 1 Hok H2 R1_neq_R0 (or_introl (conj eq_refl eq_refl)) (init_ctx two_samples)) as (lw & g & Ef & Hlw & Hg).
  { apply init_ctx_good; cbn; lia. }
  { reflexivity. }
  rewrite Ef. destruct (@choose_mpe nat (init_ctx two_samples) lw 2 _ _ _ eq_refl Hlw) as (kt & Ek & Sk & Gk). { cbn. lia. }
  rewrite Ek. cbn [mbind]. destruct (Hg kt) as (i & Ei & Si & Gi); [exact Sk| |].
  { intros n d Hn Hd. apply Gk; auto. }
  rewrite Ei. cbn [mbind]. set (c := set_out (init_ctx two_samples) i).
  assert (Gc: cgood c 2 2 2 1).
  { repeat split; auto. intros n d Hn Hd. cbn [c set_out c_out]. change (S (nf bad4_L - 1)) with 2%nat in *. rewrite Gi by (cbn; lia).
    cbn [einsum_u upar usel]. change (2 * 2)%nat with 4%nat. destruct (Gk n (d / 2)%nat Hn) as [B _].
    - destruct d as [|[|]]; cbn; lia.
    - change (uK (einsum_u bad4_L 1)) with 4%nat in B. set (k := get kt [n; d / 2]%nat) in *. cbn [sin bad4_L]. clearbody k. destruct k as [|[|[|[|]]]]; try lia; destruct d as [|[|]]; cbn; lia. }
  destruct (bottom_routes bad4 HE c 2 eq_refl H2 Gc) as (k & Hk & Eb). change (a_mpe two_samples || a_mpel two_samples) with true. rewrite Eb.
  destruct (leaf_mode_prog (leaf_of (e_leaf bad4)) k c 2 2 (sgrp bad4) (fun key => if Rle_dec (1/2) (bad4_p key) then 0 else 1)%nat Gc) as (t & Et & _).
  - intros r f Hr Hf. apply (sgrp_lt bad4 HE); auto.
  - exact Hk.
  - reflexivity.
  - rewrite Et. cbn [mbind finish two_samples a_ev]. eauto.
Qed.
Theorem C23_refuted : exists g o (E : einet nat) a0 x a, accepted g o E /\ batch E 1 x /\ a_ev a = None /\
  forall G (seeding : Z -> G) draw drawl rng rng',
  let s := fst (history seeding draw drawl (fresh E, rng) [Sample a0 None; Forward x None None]) in
  o_net (fst s) = E /\ snd (st_sample seeding draw drawl (fst s) rng' a None) = Err RuntimeErr /\
  exists t, snd (st_sample seeding draw drawl (fresh E) rng' a None) = Ok t.
Proof.
  exists bad4_g, bad4_o, bad4, bad_call, (one_row 1 2 zeros), two_samples. split; [exact bad4_accepted|]. split; [apply bad4_row, zeros_lt|].
  split; [reflexivity|]. intros G seeding draw drawl rng rng' s. split; [reflexivity|]. split; [reflexivity|].
  destruct bad4_two as [t Ht]. exists t. rewrite (proj1 (st_sample_clean seeding draw drawl (fresh bad4) rng' two_samples None (fresh_clean bad4))).
  cbn [fresh o_net]. rewrite Ht. reflexivity.
Qed.
Print Assumptions C23_refuted.
(** A seeded call, a rejected call and a cached forward pass do not spoil the object. *)
Lemma all_well_any {V G} (seeding : Z -> G) draw drawl (cs : list (@call V)) s :
  (forall c, In c cs -> forall E r, ends_well E c r) -> all_well seeding draw drawl s cs.
Proof.
  revert s; induction cs as [|c cs IH]; intros s H; [exact I|]. split; [apply H; left; auto|]. apply IH. intros; apply H; right; auto.
Qed.
Example C23_ex : exists g o (E : einet nat) cs, accepted g o E /\
  cs = [Sample two_samples (Some 3%Z); Sample (mkArgs None (CInt 0) None false false 1 None) None; Forward (one_row 1 2 zeros) None (Some 0%nat)] /\
  forall G (seeding : Z -> G) draw drawl rng, all_well seeding draw drawl (fresh E, rng) cs.
Proof.
  eexists bad4_g, bad4_o, bad4, _. split; [exact bad4_accepted|]. split; [reflexivity|]. intros G seeding draw drawl rng.
  apply all_well_any. intros c [<-|[<-|[<-|[]]]] E r; destruct r as [?|[?|?]|]; cbn; auto.
Qed.

(** * C24: seeds *)
(** A seeded call gives the same result from every generator state, and, if it returns, leaves the
    generator as it found it. *)
Theorem C24_seeded : forall V G (seeding : Z -> G) draw drawl (o : @obj V) g g' a s,
  snd (st_sample seeding draw drawl o g a (Some s)) = snd (st_sample seeding draw drawl o g' a (Some s)).
Proof. intros V G seeding draw drawl o g g' a s. apply (st_sample_seeded seeding draw drawl o g g' a s). Qed.
Print Assumptions C24_seeded.
(** Missing: calls that raise; see below. *)
Theorem C24_generator_restored_partial : forall V G (seeding : Z -> G) draw drawl (o : @obj V) g a s t,
  snd (st_sample seeding draw drawl o g a (Some s)) = Ok t -> snd (fst (st_sample seeding draw drawl o g a (Some s))) = g.
Proof.
  intros V G seeding draw drawl o g a s t. unfold st_sample. destruct (check_args (o_net o) a); [|discriminate].
  destruct (enter o a) as [o1 [u|e]]; [|discriminate]. destruct (run _ _ _ _ _) as [[t'|e] g2]; [reflexivity|discriminate].
Qed.
Print Assumptions C24_generator_restored_partial.
(** After a seeded call that raises, the global generator is the one of the seed. *)
Theorem C24_refuted : exists g o (E : einet nat) a, accepted g o E /\
  forall G (seeding : Z -> G) draw drawl rng s,
  exists e, st_sample seeding draw drawl (fresh E) rng a (Some s) = ((mkObj E [] true [None] None, seeding s), Err e).
Proof.
  exists bad4_g, bad4_o, bad4, bad_call. split; [exact bad4_accepted|]. intros. eexists. reflexivity.
Qed.
Print Assumptions C24_refuted.
Example C24_ex : exists g o (E : einet nat), accepted g o E /\
  forall G (seeding : Z -> G) draw drawl k,
  (exists t, snd (st_sample seeding draw drawl (fresh E) k two_samples (Some 7%Z)) = Ok t) /\
  snd (fst (st_sample seeding draw drawl (fresh E) k two_samples (Some 7%Z))) = k.
Proof.
  exists bad4_g, bad4_o, bad4. split; [exact bad4_accepted|]. intros G seeding draw drawl k.
  assert (H: exists t, snd (st_sample seeding draw drawl (fresh bad4) k two_samples (Some 7%Z)) = Ok t).
  { destruct bad4_two as [t Ht]. exists t. rewrite (proj1 (st_sample_clean seeding draw drawl (fresh bad4) k two_samples (Some 7%Z) (fresh_clean bad4))).
    cbn [fresh o_net]. rewrite Ht. reflexivity. }
  split; [exact H|]. destruct H as [t Ht]. apply (C24_generator_restored_partial _ _ _ _ _ _ _ _ _ t Ht).
Qed.
