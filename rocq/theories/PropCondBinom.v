(** C92: networks over ConditionalBinomial leaves. *)
From Coq Require Import List Arith Lia Bool Reals Lra.
Import ListNotations.
From Verif Require Import Base RSum Num Tensor Prob Layers Circuit Net RefFwd RefSample Leaf Perm RefLeaf Einet RefNet RefEinet Build RefBuild Spec RefSpec Family RefFamily RefDensity Ex CondBinom.
Local Open Scope R_scope.
Local Arguments Nat.div : simpl never. Local Arguments Nat.modulo : simpl never. Local Arguments Nat.sub : simpl never.
Local Arguments Nat.mul : simpl never. Local Arguments Nat.add : simpl never. Local Arguments clamp : simpl never. Local Arguments bdim : simpl never.

(** * The Binomial probabilities in terms of the logit *)
Definition sigm (t : R) : R := / (1 + exp (- t)).
Definition bpmf (n : nat) (t : R) (v : nat) : R := Binomial.C n v * sigm t ^ v * (1 - sigm t) ^ (n - v).
Lemma sigm_range t : 0 < sigm t < 1.
Proof.
  unfold sigm. pose proof (exp_pos (- t)). split; [apply Rinv_0_lt_compat; lra|]. rewrite <- Rinv_1 at 2. apply Rinv_lt_contravar; lra.
Qed.
Lemma bpmf_pos n t v : 0 < bpmf n t v.
Proof.
  pose proof (sigm_range t). unfold bpmf, Binomial.C. repeat apply Rmult_lt_0_compat; try (apply pow_lt; lra); [apply fact_pos|].
  apply Rinv_0_lt_compat, Rmult_lt_0_compat; apply fact_pos.
Qed.
Lemma bpmf_sum n t : rsum (S n) (bpmf n t) = 1.
Proof.
  pose proof (sigm_range t). rewrite rsum_sum_f. unfold bpmf. rewrite <- binomial. replace (sigm t + (1 - sigm t)) with 1 by ring. apply pow1.
Qed.
Lemma binomial_lpl_fin n t v : (v <= n)%nat -> binomial_lpl n (Fin t) v = Fin (ln (bpmf n t v)).
Proof.
  intros Hv. unfold binomial_lpl, lgamma1, nlog1p, nmax0, nabs. cbn [nneg nexp nadd]. pose proof (fact_pos n). pose proof (fact_pos v). pose proof (fact_pos (n - v)).
  rewrite (nlog_pos (INR (fact n))), (nlog_pos (INR (fact v))), (nlog_pos (INR (fact (n - v)))) by auto. rewrite nlog_pos by (pose proof (exp_pos (- Rabs t)); lra). cbn [nmul nadd nneg]. unfold nsub. cbn [nadd nneg]. f_equal.
  pose proof (sigm_range t) as Hs. pose proof (exp_pos t) as Pt. set (q := sigm t) in *.
  assert (Lq: ln q = t - ln (1 + exp t)).
  { unfold q, sigm. rewrite exp_Ropp. replace (1 + / exp t) with ((1 + exp t) * / exp t) by (field; lra). rewrite Rinv_mult, Rinv_inv.
    rewrite ln_mult by (try apply Rinv_0_lt_compat; lra). rewrite ln_Rinv, ln_exp by lra. ring. }
  assert (Lr: ln (1 - q) = - ln (1 + exp t)).
  { unfold q, sigm. rewrite exp_Ropp. replace (1 - / (1 + / exp t)) with (/ (1 + exp t)) by (field; lra). rewrite ln_Rinv by lra. reflexivity. }
  assert (PC: 0 < Binomial.C n v) by (unfold Binomial.C; apply Rdiv_lt_0_compat; auto; apply Rmult_lt_0_compat; auto).
  assert (Pq: 0 < q ^ v) by (apply pow_lt; lra). assert (Pr: 0 < (1 - q) ^ (n - v)) by (apply pow_lt; lra).
  assert (Lp: forall x k, 0 < x -> ln (x ^ k) = INR k * ln x).
  { intros x k Hx. induction k; [simpl; rewrite ln_1; ring|]. rewrite S_INR. cbn [pow]. rewrite ln_mult; auto; [rewrite IHk; ring|apply pow_lt; auto]. }
  unfold bpmf. fold q. rewrite ln_mult; [|apply Rmult_lt_0_compat; auto|auto]. rewrite ln_mult by auto. rewrite !Lp by lra. rewrite Lq, Lr.
  unfold Binomial.C, Rdiv. rewrite ln_mult; [|auto|apply Rinv_0_lt_compat, Rmult_lt_0_compat; auto].
  rewrite ln_Rinv by (apply Rmult_lt_0_compat; auto). rewrite ln_mult by auto. rewrite minus_INR by auto. rewrite <- (softplus_eq t). ring.
Qed.

(** * Which layers and inputs fit *)
Definition finite (t : tensor num) : Prop := forall idx, inb (shape t) idx -> isfin (get t idx) = true.
Definition same_on {A} (t t' : tensor A) : Prop := shape t = shape t' /\ forall idx, inb (shape t) idx -> get t idx = get t' idx.
(** [h * h] features of the first half are conditioned; cond_fn maps images of h x h pixels to one finite value for every
    channel, leaf, repetition and pixel, and depends on the entries of the images only. *)
Record cb_ok (s : cbin) (h : nat) : Prop := {
  co_h : (0 < h)%nat;
  co_C : (0 < cb_C s)%nat;
  co_F : cb_F s = (2 * (h * h))%nat;
  co_idx : length (cb_idxs s) = (h * h)%nat;
  co_lt : forall i, In i (cb_idxs s) -> (i < cb_F s)%nat;
  co_base : shape (cb_base s) = [1; cb_C s; h * h; cb_L s; cb_R s]%nat;
  co_unc : shape (cb_unc s) = [1; cb_C s; h * h; cb_L s; cb_R s]%nat;
  co_fb : finite (cb_base s);
  co_fu : finite (cb_unc s);
  co_fn : forall N xv, shape xv = [N; cb_C s; h; h] -> exists y, cb_fn s xv = Ok y /\ numel (shape y) = numel [N; cb_C s; cb_L s; cb_R s; h * h]%nat /\ finite y;
  co_ext : forall N xv xv' y y', shape xv = [N; cb_C s; h; h] -> same_on xv xv' -> cb_fn s xv = Ok y -> cb_fn s xv' = Ok y' -> same_on y y' }.

(** The images that cond_fn sees, and the logits. *)
Definition cond_image (s : cbin) (h N : nat) (z : nat -> nat -> nat -> option nat) (xv : tensor (option nat)) : Prop :=
  shape xv = [N; cb_C s; h; h] /\ forall n c i j, (n < N)%nat -> (c < cb_C s)%nat -> (i < h)%nat -> (j < h)%nat ->
    get xv [n; c; i; j] = z n c (nth (i * h + j) (cb_idxs s) 0)%nat.
Definition logit (s : cbin) (h N : nat) (y : tensor num) (n c f l r : nat) : R :=
  if (f <? h * h)%nat then toR (get (cb_base s) [0; c; f; l; r]%nat) + toR (get y (unravel (shape y) (ravel [N; cb_C s; cb_L s; cb_R s; h * h]%nat [n; c; l; r; f])))
  else toR (get (cb_unc s) [0; c; f - h * h; l; r]%nat).

Lemma image_view N C h n c i j : (n < N)%nat -> (c < C)%nat -> (i < h)%nat -> (j < h)%nat ->
  unravel [N; C; h * h; 1; 1]%nat (ravel [N; C; h; h] [n; c; i; j]) = [n; c; i * h + j; 0; 0]%nat.
Proof.
  intros. replace (ravel [N; C; h; h] [n; c; i; j]) with (ravel [N; C; h * h; 1; 1] [n; c; i * h + j; 0; 0])%nat.
  - apply unravel_ravel. cbn. repeat split; auto. nia.
  - cbn [ravel numel]. ring.
Qed.
Lemma permute5 {A} (g : list nat -> A) a b c d e : permute [0; 1; 4; 2; 3]%nat (mkT [a; b; c; d; e] g) =
  mkT [a; b; e; c; d] (fun i => g [nth 0 i 0; nth 1 i 0; nth 3 i 0; nth 4 i 0; nth 2 i 0]%nat).
Proof. reflexivity. Qed.

Lemma cb_logits_ok s h N x : cb_ok s h -> shape x = [N; cb_C s; cb_F s] ->
  exists xc xv y lg, cb_cond s x = Ok xc /\ cond_image s h N (fun n c i => get x [n; c; i]) xv /\ cb_fn s xv = Ok y /\ cb_logits s xc = Ok lg /\
    shape lg = [N; cb_C s; cb_F s; cb_L s; cb_R s] /\
    forall n c f l r, (n < N)%nat -> (c < cb_C s)%nat -> (f < cb_F s)%nat -> (l < cb_L s)%nat -> (r < cb_R s)%nat ->
      get lg [n; c; f; l; r] = Fin (logit s h N y n c f l r).
Proof.
  intros [Hh HC HF Hi Hlt Sb Su Fb Fu Hfn Hext] Sx. unfold cb_cond. rewrite Sx.
  replace (forallb (fun i => i <? cb_F s)%nat (cb_idxs s)) with true by (symmetry; apply forallb_forall; intros i Hin; apply Nat.ltb_lt; auto).
  cbn [guard bind]. rewrite Hi. set (xc := mkT [N; cb_C s; h * h; 1; 1]%nat _).
  enough (E: exists xv y lg, cond_image s h N (fun n c i => get x [n; c; i]) xv /\ cb_fn s xv = Ok y /\ cb_logits s xc = Ok lg /\
    shape lg = [N; cb_C s; cb_F s; cb_L s; cb_R s] /\
    forall n c f l r, (n < N)%nat -> (c < cb_C s)%nat -> (f < cb_F s)%nat -> (l < cb_L s)%nat -> (r < cb_R s)%nat ->
      get lg [n; c; f; l; r] = Fin (logit s h N y n c f l r)).
  { destruct E as (xv & y & lg & E). exists xc, xv, y, lg. split; [reflexivity|exact E]. }
  unfold cb_logits. cbv zeta. change (size xc 2) with (h * h)%nat. change (size xc 1) with (cb_C s). change (size xc 0) with N. rewrite Nat.sqrt_square, Nat.eqb_refl. cbn [assert guard bind].
  unfold view_infer. cbn [numel app]. destruct (Nat.eqb_spec (1 * (cb_C s * (h * (h * 1)))) 0) as [Z|_]; [nia|].
  change (shape xc) with [N; cb_C s; h * h; 1; 1]%nat. cbn [numel]. replace (N * (cb_C s * (h * h * (1 * (1 * 1)))) / (1 * (cb_C s * (h * (h * 1)))))%nat with N
    by (apply Nat.div_unique with (r := 0%nat); [nia|ring]).
  unfold view at 1. change (shape xc) with [N; cb_C s; h * h; 1; 1]%nat. cbn [shape numel]. replace (N * (cb_C s * (h * (h * 1))) =? N * (cb_C s * (h * h * (1 * (1 * 1)))))%nat with true by (symmetry; apply Nat.eqb_eq; ring).
  cbn [bind]. set (xv := mkT [N; cb_C s; h; h] _).
  destruct (Hfn N xv eq_refl) as (y & Ey & Ny & Fy). rewrite Ey. cbn [bind].
  exists xv, y. unfold view. rewrite Ny, Nat.eqb_refl. cbn [bind]. rewrite permute5.
  unfold finite in *. destruct (cb_base s) as [sb gb] eqn:Eb, (cb_unc s) as [su gu] eqn:Eu. cbn [shape get] in *. subst sb su.
  unfold badd. bcast. cbn [bind tl]. unfold expand. cbn [shape expandable]. rewrite !Nat.eqb_refl. cbn [orb andb]. rewrite orb_true_r. cbn [andb bind].
  unfold cat2. cbn [shape set_nth]. rewrite eqb_list_refl. unfold size. cbn [shape nth].
  eexists. split; [|split; [exact Ey|split; [reflexivity|]]].
  - split; [reflexivity|]. intros n c i j Hn Hc Hi' Hj. unfold xv. cbn [get]. rewrite image_view by auto. reflexivity.
  - split; [cbn [shape]; rewrite HF; replace (2 * (h * h))%nat with (h * h + h * h)%nat by ring; reflexivity|]. intros n c f l r Hn Hc Hf Hl Hr. rewrite HF in Hf. cbn [get nth]. unfold logit. rewrite Eb, Eu.
    destruct (Nat.ltb_spec f (h * h)) as [H1|H1].
    + unfold bproj. cbn [length]. rewrite !Nat.sub_diag. cbn [skipn bidx]. clamps. cbn [nth].
      rewrite (isfin_Fin (gb [0; c; f; l; r]%nat)) by (apply Fb; cbn; auto 10).
      set (iy := unravel _ _). rewrite (isfin_Fin (get y iy)); [reflexivity|]. apply Fy. unfold iy. apply unravel_inb. rewrite Ny. apply ravel_lt. cbn. auto 10.
    + cbn [set_nth]. unfold bproj. cbn [length]. rewrite !Nat.sub_diag. cbn [skipn bidx].
      assert (H2: (f - h * h < h * h)%nat) by lia. clamps. apply isfin_Fin. apply Fu. cbn. auto 10.
Qed.

(** * The network *)
Record cb_fits (E : einet nat) (s : cbin) : Prop := {
  ft_C : cb_C s = e_C E; ft_F : cb_F s = e_F E; ft_L : cb_L s = e_L E; ft_R : cb_R s = e_R E }.
(** A batch without missing entries, with the values [d]. *)
Definition filled (E : einet nat) (s : cbin) (N : nat) (x : tensor (option nat)) (d : nat -> nat -> nat -> nat) : Prop :=
  wshape (shape x) N (e_C E) (e_F E) /\
  forall n c f, (n < N)%nat -> (c < e_C E)%nat -> (f < e_F E)%nat -> entry x n c f = Some (d n c f) /\ (d n c f <= cb_total s)%nat.
Definition scope (E : einet nat) (ms : option (list nat)) : Prop := match ms with Some sc => forall f, In f sc -> (f < e_F E)%nat | None => True end.
Definition marg (ms : option (list nat)) (f : nat) : bool := match ms with Some sc => existsb (Nat.eqb f) sc | None => false end.
(** exp of an entry of the output, zero if the call fails *)
Definition clik (E : einet nat) (s : cbin) (x : tensor (option nat)) (ms : option (list nat)) (n k : nat) : R :=
  match cond_forward E s x ms with Ok y => pval (get y [n; k]) | Err _ => 0 end.

Section Net.
Variable E : einet nat.
Hypothesis HE : einet_ok E.
Variable s : cbin.
Variable h : nat.
Hypothesis Hs : cb_ok s h.
Hypothesis Hf : cb_fits E s.

Definition cq (N : nat) (y : tensor num) (d : nat -> nat -> nat -> nat) (ms : option (list nat)) (n : nat) : leaves := fun c f l r =>
  if marg ms f then 1 else bpmf (cb_total s) (logit s h N y n c f l r) (d n c f).
Lemma cq_pos N y d ms n c f l r : 0 < cq N y d ms n c f l r.
Proof. unfold cq. destruct (marg ms f); [lra|apply bpmf_pos]. Qed.

Lemma image_ext N z z' xv : (forall n c i, (n < N)%nat -> (c < cb_C s)%nat -> In i (cb_idxs s) -> z n c i = z' n c i) ->
  cond_image s h N z xv -> cond_image s h N z' xv.
Proof.
  intros H [S G]. split; auto. intros n c i j Hn Hc Hi Hj. rewrite G by auto. apply H; auto. apply nth_In. rewrite (co_idx s h Hs). nia.
Qed.

Lemma cb_forward_ok N x ms d : shape x = [N; cb_C s; cb_F s] -> scope E ms ->
  (forall n c f, (n < N)%nat -> (c < cb_C s)%nat -> (f < cb_F s)%nat -> get x [n; c; f] = Some (d n c f) /\ (d n c f <= cb_total s)%nat) ->
  exists xv y t, cond_image s h N (fun n c i => get x [n; c; i]) xv /\ cb_fn s xv = Ok y /\ cb_forward s x ms = Ok t /\
    shape t = [N; cb_C s; cb_F s; cb_L s; cb_R s] /\
    forall n c f l r, (n < N)%nat -> (c < cb_C s)%nat -> (f < cb_F s)%nat -> (l < cb_L s)%nat -> (r < cb_R s)%nat ->
      get t [n; c; f; l; r] = Fin (ln (cq N y d ms n c f l r)).
Proof.
  intros Sx Hm Hd. destruct (cb_logits_ok s h N x Hs Sx) as (xc & xv & y & lg & Ec & Im & Ey & El & Sl & Gl).
  exists xv, y. unfold cb_forward. rewrite Ec. cbn [bind]. rewrite El. cbn [bind].
  replace (forallb (fun idx => negb (isnan (get lg idx))) (all_idx (shape lg))) with true.
  2:{ symmetry. apply forallb_forall. intros idx Hi. apply in_all_idx in Hi. rewrite Sl in Hi. inbs. rewrite Gl by auto. reflexivity. }
  replace (forallb (fun idx => in_support (cb_total s) (get x idx)) (all_idx (shape x))) with true.
  2:{ symmetry. apply forallb_forall. intros idx Hi. apply in_all_idx in Hi. rewrite Sx in Hi. inbs. match goal with |- context [get x [?a; ?b; ?c]] => destruct (Hd a b c) as [-> B]; auto end. cbn [in_support]. apply Nat.leb_le. auto. }
  cbn [guard bind]. unfold dim. rewrite Sx. cbn [length Nat.eqb].
  set (x1 := unsq_end 2 x).
  assert (E1: shape x1 = [N; cb_C s; cb_F s; 1; 1]%nat) by (unfold x1; destruct x as [sx gx]; cbn [shape] in Sx; subst sx; reflexivity).
  assert (G1: forall n c f l r, get x1 [n; c; f; l; r] = get x [n; c; f]) by (unfold x1; destruct x as [sx gx]; cbn [shape] in Sx; subst sx; reflexivity).
  unfold bop. rewrite E1, Sl. unfold bshape. cbn [rev app bshape_rev].
  rewrite ?bdim_refl, ?bdim_1_l, ?bdim_1_r. cbn [option_map rev app bind].
  set (t := mkT [N; cb_C s; cb_F s; cb_L s; cb_R s] _).
  assert (Gt: forall n c f l r, (n < N)%nat -> (c < cb_C s)%nat -> (f < cb_F s)%nat -> (l < cb_L s)%nat -> (r < cb_R s)%nat ->
    get t [n; c; f; l; r] = Fin (ln (bpmf (cb_total s) (logit s h N y n c f l r) (d n c f)))).
  { intros n c f l r Hn Hc Hf' Hl Hr. unfold t. cbn [get]. rewrite !bproj_same by reflexivity. cbn [bidx]. rewrite G1. clamps.
    destruct (Hd n c f Hn Hc Hf') as [-> B]. rewrite Gl by auto. apply binomial_lpl_fin. auto. }
  assert (St: shape t = [N; cb_C s; cb_F s; cb_L s; cb_R s]) by reflexivity. clearbody t.
  unfold marginalize_input, cq, marg. destruct ms as [sc|].
  - unfold size. rewrite St. cbn [nth]. replace (forallb (fun f => f <? cb_F s)%nat sc) with true.
    2:{ symmetry. apply forallb_forall. intros f Hi. apply Nat.ltb_lt. rewrite (ft_F E s Hf). apply Hm. auto. }
    cbn [guard bind]. eexists. split; [exact Im|]. split; [exact Ey|]. split; [reflexivity|]. split; [reflexivity|].
    intros n c f l r Hn Hc Hf' Hl Hr. cbn [get nth]. destruct (existsb (Nat.eqb f) sc); [rewrite ln_1; reflexivity|auto].
  - eexists. split; [exact Im|]. split; [exact Ey|]. split; [reflexivity|]. split; [exact St|].
    intros n c f l r Hn Hc Hf' Hl Hr. cbn [get]. rewrite Gt by auto. reflexivity.
Qed.

Lemma cond_forward_ok N x ms d : filled E s N x d -> scope E ms ->
  exists xv y out, cond_image s h N (entry x) xv /\ cb_fn s xv = Ok y /\ cond_forward E s x ms = Ok out /\ shape out = [N; e_K E] /\
    forall n k, (n < N)%nat -> (k < e_K E)%nat -> get out [n; k] = Fin (ln (neteval (fnet E) (cq N y d ms n) k)).
Proof.
  intros [Hw Hd] Hm. destruct Hf as [fC fF fL fR]. destruct (prepare_ok E HE N x Hw) as (x1 & Ep & S1 & G1).
  destruct (cb_forward_ok N x1 ms d) as (xv & y & t & Im & Ey & Et & St & Gt); auto.
  { rewrite fC, fF. auto. }
  { intros n c f Hn Hc Hf'. rewrite fC in Hc. rewrite fF in Hf'. rewrite G1 by auto. auto. }
  pose proof (eo_lC E HE) as lC. pose proof (eo_lF E HE) as lF. pose proof (eo_lL E HE) as lL. pose proof (eo_lR E HE) as lR.
  destruct (top_forward E HE N t (cq N y d ms)) as (out & cs & Eo & So & Go & _).
  { rewrite lC, lF, lL, lR, St, fC, fF, fL, fR. reflexivity. }
  { intros. apply cq_pos. }
  { rewrite lC, lF, lL, lR. intros. apply Gt; rewrite ?fC, ?fF, ?fL, ?fR; auto. }
  exists xv, y, out. split; [|split; [exact Ey|split; [|split; auto]]].
  - apply (image_ext N (fun n c i => get x1 [n; c; i])); auto. intros n c i Hn Hc Hi. apply G1; auto; [lia|]. rewrite <- fF. apply (co_lt s h Hs). auto.
  - unfold cond_forward, cond_full. rewrite Ep. cbn [bind]. rewrite Et. cbn [bind].
    fold (leaf_top E t).
    destruct (leaf_top E t) as [y0|]; [|discriminate]. cbn [bind] in *. destruct (merge_channels E y0) as [y1|]; [|discriminate]. cbn [bind] in *.
    rewrite Eo. reflexivity.
Qed.
Lemma clik_ok N x ms d n k : filled E s N x d -> scope E ms -> (n < N)%nat -> (k < e_K E)%nat ->
  exists xv y, cond_image s h N (entry x) xv /\ cb_fn s xv = Ok y /\ clik E s x ms n k = neteval (fnet E) (cq N y d ms n) k.
Proof.
  intros Hx Hm Hn Hk. destruct (cond_forward_ok N x ms d Hx Hm) as (xv & y & out & Im & Ey & Eo & So & Go). exists xv, y. split; auto. split; auto.
  unfold clik. rewrite Eo, Go by auto. cbn [pval]. rewrite exp_ln; auto. apply neteval_pos; [apply fnet_wf; auto|auto|intros; apply cq_pos].
Qed.

Lemma image_same N z z' xv xv' : (forall n c i, (n < N)%nat -> (c < cb_C s)%nat -> In i (cb_idxs s) -> z n c i = z' n c i) ->
  cond_image s h N z xv -> cond_image s h N z' xv' -> same_on xv xv'.
Proof.
  intros H I1 [S2 G2]. apply (image_ext N z z' xv H) in I1 as [S1 G1]. split; [congruence|]. rewrite S1. intros idx Hi. inbs. rewrite G1, G2 by auto. reflexivity.
Qed.
Lemma logit_same N y y' n c f l r : same_on y y' -> numel (shape y) = numel [N; cb_C s; cb_L s; cb_R s; h * h]%nat ->
  (n < N)%nat -> (c < cb_C s)%nat -> (l < cb_L s)%nat -> (r < cb_R s)%nat -> logit s h N y n c f l r = logit s h N y' n c f l r.
Proof.
  intros [Sy Gy] Ny Hn Hc Hl Hr. unfold logit. destruct (Nat.ltb_spec f (h * h)) as [H1|H1]; auto. rewrite <- Sy. rewrite Gy; auto.
  apply unravel_inb. rewrite Ny. apply ravel_lt. cbn. auto 10.
Qed.
Lemma fn_numel N xv y : shape xv = [N; cb_C s; h; h] -> cb_fn s xv = Ok y -> numel (shape y) = numel [N; cb_C s; cb_L s; cb_R s; h * h]%nat.
Proof. intros S1 E1. destruct (co_fn s h Hs N xv S1) as (y' & E2 & Hn & _). rewrite E1 in E2. inversion E2. subst. auto. Qed.

(** Data points *)
Let B := S (cb_total s).
Let M := (e_C E * e_F E)%nat.
Let wd (w : list nat) : nat -> nat -> nat -> nat := fun _ c f => nth (c * e_F E + f) w 0%nat.
Let pp (y : tensor num) : nat -> nat -> nat -> nat -> nat -> R := fun c f l r v => bpmf (cb_total s) (logit s h 1 y 0 c f l r) v.
Lemma point_filled w : In w (vectors B M) -> filled E s 1 (point (e_C E) (e_F E) w) (wd w).
Proof.
  intros H. apply vectors_In in H as [Hl Hv]. split; [right; left; reflexivity|]. intros n c f Hn Hc Hf'. split; [reflexivity|].
  unfold wd. enough (nth (c * e_F E + f) w 0 < B)%nat by (unfold B in *; lia). apply Hv. unfold M. nia.
Qed.
Lemma clik_point w k : In w (vectors B M) -> (k < e_K E)%nat -> exists xv y,
  cond_image s h 1 (fun _ c f => Some (nth (c * e_F E + f) w 0%nat)) xv /\ cb_fn s xv = Ok y /\
  clik E s (point (e_C E) (e_F E) w) None 0 k = neteval (fnet E) (lval (pp y) (fun c f => Some (nth (c * e_F E + f) w 0%nat))) k.
Proof.
  intros Hw Hk. destruct (clik_ok 1 _ None (wd w) 0 k (point_filled w Hw) I ltac:(lia) Hk) as (xv & y & Im & Ey & El).
  exists xv, y. split; [|split; auto]. exact Im.
Qed.

Lemma clik_same w u k y xv : In w (vectors B M) -> In u (vectors B M) -> (k < e_K E)%nat ->
  (forall c i, (c < cb_C s)%nat -> In i (cb_idxs s) -> nth (c * e_F E + i) w 0%nat = nth (c * e_F E + i) u 0%nat) ->
  cond_image s h 1 (fun _ c f => Some (nth (c * e_F E + f) w 0%nat)) xv -> cb_fn s xv = Ok y ->
  clik E s (point (e_C E) (e_F E) u) None 0 k = neteval (fnet E) (lval (pp y) (fun c f => Some (nth (c * e_F E + f) u 0%nat))) k.
Proof.
  intros Hw Hu Hk H Im Ey. destruct (clik_point u k Hu Hk) as (xv' & y' & Im' & Ey' & ->).
  assert (Sx: same_on xv xv') by (eapply image_same; [|exact Im|exact Im']; intros n c i Hn Hc Hi; cbn beta; rewrite H; auto).
  pose proof (co_ext s h Hs _ _ _ _ _ (proj1 Im) Sx Ey Ey') as Sy. pose proof (fn_numel 1 xv y (proj1 Im) Ey) as Ny. destruct Hf as [fC fF fL fR].
  apply neteval_ext; [apply fnet_wf; auto|auto|]. intros c f l r Hc Hf' Hl Hr. unfold lval, pp. f_equal.
  change (c < e_C E)%nat in Hc. change (l < e_L E)%nat in Hl. change (r < e_R E)%nat in Hr.
  symmetry. apply logit_same; auto; lia.
Qed.
Lemma net_points y z k : (k < e_K E)%nat -> (forall c f v, (c < e_C E)%nat -> (f < e_F E)%nat -> z c f = Some v -> (v < B)%nat) ->
  neteval (fnet E) (lval (pp y) z) k =
  sum_points B (e_C E) (e_F E) z (fun w => neteval (fnet E) (lval (pp y) (fun c f => Some (nth (c * e_F E + f) w 0%nat))) k).
Proof.
  intros Hk Hz. apply (net_completions (fnet E) (fnet_wf E HE) B (pp y)); auto.
  - intros. left. apply bpmf_pos.
  - intros. apply bpmf_sum.
Qed.

(** Marginalizing features that are not conditioned on. *)
Lemma clik_marginal w sc k : In w (vectors B M) -> (forall f, In f sc -> (f < e_F E)%nat) -> (forall f, In f sc -> ~ In f (cb_idxs s)) -> (k < e_K E)%nat ->
  clik E s (point (e_C E) (e_F E) w) (Some sc) 0 k =
  sum_points B (e_C E) (e_F E) (hide sc (fun c f => Some (nth (c * e_F E + f) w 0%nat))) (fun u => clik E s (point (e_C E) (e_F E) u) None 0 k).
Proof.
  intros Hw Hsc Hdis Hk. destruct (clik_ok 1 _ (Some sc) (wd w) 0 k (point_filled w Hw) Hsc ltac:(lia) Hk) as (xv & y & Im & Ey & ->).
  transitivity (neteval (fnet E) (lval (pp y) (hide sc (fun c f => Some (nth (c * e_F E + f) w 0%nat)))) k).
  { apply neteval_ext; [apply fnet_wf; auto|auto|]. intros c f l r _ _ _ _. unfold cq, lval, hide, marg. destruct (existsb (Nat.eqb f) sc); reflexivity. }
  rewrite net_points; auto.
  - unfold sum_points. apply lsum_ext. intros u Hu. apply filter_In in Hu as [Hu Hc]. symmetry. apply (clik_same w u k y xv); auto.
    rewrite completes_iff in Hc. intros c i Hi Hin. specialize (Hc c i ltac:(rewrite <- (ft_C E s Hf); auto) ltac:(rewrite <- (ft_F E s Hf); apply (co_lt s h Hs); auto)).
    unfold hide in Hc. destruct (existsb (Nat.eqb i) sc) eqn:Ex; auto. exfalso. apply existsb_exists in Ex as (j & Hj & Ej). apply Nat.eqb_eq in Ej. subst j. eapply Hdis; eauto.
  - intros c f v Hc Hf' Hv. unfold hide in Hv. destruct (existsb (Nat.eqb f) sc); [discriminate|]. inversion Hv. apply vectors_In in Hw as [_ Hv']. apply Hv'. unfold M. nia.
Qed.

(** Two functions with equal sums on every class of an equivalence have equal sums. *)
Lemma class_sums {A} (r : A -> A -> bool) (f g : A -> R) : forall n l, (length l <= n)%nat ->
  (forall a, In a l -> r a a = true) -> (forall a b, In a l -> In b l -> r a b = true -> r b a = true) ->
  (forall a b c, In a l -> In b l -> In c l -> r a b = true -> r b c = true -> r a c = true) ->
  (forall a, In a l -> lsum f (filter (r a) l) = lsum g (filter (r a) l)) -> lsum f l = lsum g l.
Proof.
  clear. induction n; intros l Hl Rf Sy Tr H.
  - destruct l; [reflexivity|cbn in Hl; lia].
  - destruct l as [|a l]; [reflexivity|]. set (L := a :: l) in *. set (rest := filter (fun b => negb (r a b)) L).
    assert (Sp: forall q, lsum q L = lsum q (filter (r a) L) + lsum q rest).
    { intros q. unfold rest. rewrite !lsum_filter. clearbody L. clear. induction L; cbn [lsum]; [ring|]. rewrite IHL. destruct (r a a0); cbn [negb]; ring. }
    assert (Ha: In a L) by (left; reflexivity). rewrite !Sp, (H a Ha). f_equal.
    assert (Sub: forall b, In b rest -> In b L /\ r a b = false) by (intros b Hb; apply filter_In in Hb as [Hb Hr]; split; auto; apply negb_true_iff; auto).
    apply IHn.
    + assert (E: filter (fun b => negb (r a b)) L = filter (fun b => negb (r a b)) l) by (unfold L; cbn [filter]; rewrite (Rf a Ha); reflexivity).
      unfold rest. rewrite E. cbn [L length] in Hl. assert (Fl: forall q (m : list A), (length (filter q m) <= length m)%nat) by (clear; intros q m; induction m; cbn [filter length]; [auto|destruct (q a); cbn [length]; lia]).
      pose proof (Fl (fun b => negb (r a b)) l). lia.
    + intros b Hb. apply Rf. apply Sub. auto.
    + intros b c Hb Hc. apply Sy; apply Sub; auto.
    + intros b c e Hb Hc He. apply Tr; apply Sub; auto.
    + intros b Hb. destruct (Sub b Hb) as [HbL Hab].
      assert (E: filter (r b) rest = filter (r b) L).
      { unfold rest. rewrite <- (filter_ext_in (fun x => r b x && negb (r a x)) (r b) L).
        - clear. induction L; cbn [filter]; auto. destruct (r a a0), (r b a0) eqn:Eb; cbn [negb andb filter]; rewrite ?Eb, IHL; auto.
        - intros x Hx. destruct (r b x) eqn:Eb; auto. destruct (r a x) eqn:Ea; auto. exfalso.
          rewrite (Tr a x b Ha Hx HbL Ea (Sy b x HbL Hx Eb)) in Hab. discriminate. }
      rewrite E. auto.
Qed.

Lemma clik_normalized k : (forall i, In i (cb_idxs s) -> (h * h <= i)%nat) -> (k < e_K E)%nat ->
  lsum (fun w => clik E s (point (e_C E) (e_F E) w) None 0 k) (vectors B M) = 1.
Proof.
  intros Hi Hk. set (y0 := mkT [] (fun _ => Fin 0)). set (second := fun w c f => if (f <? h * h)%nat then None else Some (nth (c * e_F E + f) w 0%nat)).
  set (P0 := fun w => neteval (fnet E) (lval (pp y0) (fun c f => Some (nth (c * e_F E + f) w 0%nat))) k).
  assert (Rel: forall w u, completes (e_C E) (e_F E) (second w) u = true <->
    forall c f, (c < e_C E)%nat -> (f < e_F E)%nat -> (h * h <= f)%nat -> nth (c * e_F E + f) w 0%nat = nth (c * e_F E + f) u 0%nat).
  { intros w u. rewrite completes_iff. unfold second. split.
    - intros H c f Hc Hf' Hh. specialize (H c f Hc Hf'). destruct (Nat.ltb_spec f (h * h)); [lia|auto].
    - intros H c f Hc Hf'. destruct (Nat.ltb_spec f (h * h)); auto. }
  transitivity (lsum P0 (vectors B M)).
  - apply (class_sums (fun w u => completes (e_C E) (e_F E) (second w) u) _ _ (length (vectors B M))); auto.
    + intros w _. apply Rel. auto.
    + intros w u _ _ H. apply Rel. intros. symmetry. rewrite Rel in H. auto.
    + intros w u v _ _ _ H1 H2. apply Rel. intros. rewrite Rel in H1, H2. rewrite H1 by auto. auto.
    + intros w Hw. destruct (clik_point w k Hw Hk) as (xv & y & Im & Ey & _).
      assert (Hz: forall c f v, (c < e_C E)%nat -> (f < e_F E)%nat -> second w c f = Some v -> (v < B)%nat).
      { intros c f v Hc Hf' Hv. unfold second in Hv. destruct (f <? h * h)%nat; [discriminate|]. inversion Hv. apply vectors_In in Hw as [_ Hv']. apply Hv'. unfold M. nia. }
      transitivity (neteval (fnet E) (lval (pp y) (second w)) k).
      * rewrite net_points by auto. unfold sum_points. apply lsum_ext. intros u Hu. apply filter_In in Hu as [Hu Hc]. apply (clik_same w u k y xv); auto.
        rewrite Rel in Hc. intros c i Hc' Hin. apply Hc; [rewrite <- (ft_C E s Hf); auto|rewrite <- (ft_F E s Hf); apply (co_lt s h Hs); auto|auto].
      * transitivity (neteval (fnet E) (lval (pp y0) (second w)) k).
        -- apply neteval_ext; [apply fnet_wf; auto|auto|]. intros c f l r _ _ _ _. unfold lval, second, pp, logit. destruct (f <? h * h)%nat; reflexivity.
        -- rewrite net_points by auto. reflexivity.
  - transitivity (neteval (fnet E) (lval (pp y0) (fun _ _ => None)) k).
    + rewrite net_points; [|auto|discriminate]. unfold sum_points. rewrite lsum_filter. apply lsum_ext. intros w _.
      replace (completes (e_C E) (e_F E) (fun _ _ => None) w) with true; auto. symmetry. apply completes_iff. intros; exact I.
    + apply neteval_one; [apply fnet_wf; auto|auto|]. intros c f l r _ _ _ _. reflexivity.
Qed.

(** A missing entry makes the call fail. *)
Lemma cb_forward_missing x ms n c f N C F : shape x = [N; C; F] -> (n < N)%nat -> (c < C)%nat -> (f < F)%nat -> get x [n; c; f] = None ->
  exists e, cb_forward s x ms = Err e.
Proof.
  intros Sx Hn Hc Hf' Gx. unfold cb_forward. destruct (cb_cond s x) as [xc|e]; [|exists e; reflexivity]. cbn [bind].
  destruct (cb_logits s xc) as [lg|e]; [|exists e; reflexivity]. cbn [bind].
  destruct (guard _ ValueErr) as [[]|e]; [|exists e; reflexivity]. cbn [bind].
  replace (forallb (fun idx => in_support (cb_total s) (get x idx)) (all_idx (shape x))) with false; [exists ValueErr; reflexivity|].
  symmetry. apply not_true_iff_false. rewrite forallb_forall. intros H. specialize (H [n; c; f]). rewrite Gx in H. cbn [in_support] in H.
  enough (false = true) by discriminate. apply H. apply in_all_idx. rewrite Sx. cbn. auto.
Qed.
End Net.

(** * The claims *)
(** The output of a call on data without missing values is the log-likelihood of the circuit whose leaves are Binomials:
    the logits of the first half of the features are the base parameters plus what [cond_fn] returns for the images of
    the conditioning features, those of the second half are parameters. *)
Theorem C92_forward : forall g o E s h N x ms d, accepted g o E -> cb_ok s h -> cb_fits E s -> filled E s N x d -> scope E ms ->
  exists xv y out, cond_image s h N (entry x) xv /\ cb_fn s xv = Ok y /\ cond_forward E s x ms = Ok out /\ shape out = [N; e_K E] /\
    forall n k, (n < N)%nat -> (k < e_K E)%nat -> get out [n; k] = Fin (ln (neteval (fnet E)
      (fun c f l r => if marg ms f then 1 else bpmf (cb_total s) (logit s h N y n c f l r) (d n c f)) k)).
Proof. intros g o E s h N x ms d A Hs Hf Hx Hm. apply (cond_forward_ok E (accepted_ok _ _ E A) s h Hs Hf); auto. Qed.
(** Conditioning on features of the second half: the likelihoods of all data points sum to one. *)
Theorem C92_normalized : forall g o E s h k, accepted g o E -> cb_ok s h -> cb_fits E s -> (k < e_K E)%nat ->
  (forall i, In i (cb_idxs s) -> (h * h <= i)%nat) ->
  lsum (fun w => clik E s (point (e_C E) (e_F E) w) None 0 k) (vectors (S (cb_total s)) (e_C E * e_F E)) = 1.
Proof. intros g o E s h k A Hs Hf Hk Hi. apply (clik_normalized E (accepted_ok _ _ E A) s h Hs Hf); auto. Qed.
(** Marginalized scopes that contain no conditioning feature give the sum over all values of these features. *)
Theorem C92_marginal : forall g o E s h w sc k, accepted g o E -> cb_ok s h -> cb_fits E s -> (k < e_K E)%nat ->
  In w (vectors (S (cb_total s)) (e_C E * e_F E)) -> (forall f, In f sc -> (f < e_F E)%nat) -> (forall f, In f sc -> ~ In f (cb_idxs s)) ->
  clik E s (point (e_C E) (e_F E) w) (Some sc) 0 k =
  sum_points (S (cb_total s)) (e_C E) (e_F E) (hide sc (fun c f => Some (nth (c * e_F E + f) w 0%nat))) (fun u => clik E s (point (e_C E) (e_F E) u) None 0 k).
Proof. intros g o E s h w sc k A Hs Hf Hk Hw H1 H2. apply (clik_marginal E (accepted_ok _ _ E A) s h Hs Hf); auto. Qed.
(** A batch with a missing entry is rejected, with or without marginalized scopes. *)
Theorem C92_missing_refuted : forall g o E s N x ms n c f, accepted g o E -> cb_fits E s -> wshape (shape x) N (e_C E) (e_F E) ->
  (n < N)%nat -> (c < e_C E)%nat -> (f < e_F E)%nat -> entry x n c f = None -> exists e, cond_forward E s x ms = Err e.
Proof.
  intros g o E s N x ms n c f A Hf Hw Hn Hc Hf' Hx. pose proof (accepted_ok _ _ E A) as HE. destruct (prepare_ok E HE N x Hw) as (x1 & Ep & S1 & G1).
  destruct (cb_forward_missing s x1 ms n c f N (e_C E) (e_F E) S1 Hn Hc Hf') as (e & Ee); [rewrite G1 by auto; auto|].
  exists e. unfold cond_forward, cond_full. rewrite Ep. cbn [bind]. rewrite Ee. reflexivity.
Qed.

(** Values outside 0 .. total_count, missing ones among them, raise ValueError. *)
Theorem C92_rejects_values : forall g o E s h N x ms n c f, accepted g o E -> cb_ok s h -> cb_fits E s -> wshape (shape x) N (e_C E) (e_F E) ->
  (n < N)%nat -> (c < e_C E)%nat -> (f < e_F E)%nat -> (forall v, entry x n c f = Some v -> (cb_total s < v)%nat) -> cond_forward E s x ms = Err ValueErr.
Proof.
  intros g o E s h N x ms n c f A Hs Hf Hw Hn Hc Hf' Hx. pose proof (accepted_ok _ _ E A) as HE. destruct (prepare_ok E HE N x Hw) as (x1 & Ep & S1 & G1).
  unfold cond_forward, cond_full. rewrite Ep. cbn [bind]. destruct (cb_logits_ok s h N x1 Hs) as (xc & xv & y & lg & Ec & _ & _ & El & Sl & Gl).
  { rewrite (ft_C E s Hf), (ft_F E s Hf). exact S1. }
  unfold cb_forward. rewrite Ec. cbn [bind]. rewrite El. cbn [bind].
  replace (forallb (fun idx => negb (isnan (get lg idx))) (all_idx (shape lg))) with true.
  2:{ symmetry. apply forallb_forall. intros idx Hi. apply in_all_idx in Hi. rewrite Sl in Hi. inbs. rewrite Gl by auto. reflexivity. }
  cbn [guard bind]. replace (forallb (fun idx => in_support (cb_total s) (get x1 idx)) (all_idx (shape x1))) with false; [reflexivity|].
  symmetry. apply not_true_iff_false. rewrite forallb_forall. intros H. specialize (H [n; c; f]). rewrite G1 in H by auto.
  assert (H': in_support (cb_total s) (entry x n c f) = true) by (apply H; apply in_all_idx; rewrite S1; cbn; auto).
  destruct (entry x n c f) as [v|]; [|discriminate]. cbn [in_support] in H'. apply Nat.leb_le in H'. specialize (Hx v eq_refl). lia.
Qed.
(** A number of conditioning features that is not a square raises AssertionError. *)
Theorem C92_rejects_shapes : forall g o E s N x ms, accepted g o E -> wshape (shape x) N (e_C E) (e_F E) ->
  (forall i, In i (cb_idxs s) -> (i < e_F E)%nat) -> (forall m, length (cb_idxs s) <> m * m)%nat -> cond_forward E s x ms = Err AssertionError.
Proof.
  intros g o E s N x ms A Hw Hi Hq. pose proof (accepted_ok _ _ E A) as HE. destruct (prepare_ok E HE N x Hw) as (x1 & Ep & S1 & _).
  unfold cond_forward, cond_full. rewrite Ep. cbn [bind]. unfold cb_forward, cb_cond. rewrite S1.
  replace (forallb (fun i => i <? e_F E)%nat (cb_idxs s)) with true by (symmetry; apply forallb_forall; intros i Hin; apply Nat.ltb_lt; auto).
  cbn [guard bind]. unfold cb_logits. cbv zeta. unfold size. cbn [shape nth]. destruct (Nat.eqb_spec (Nat.sqrt (length (cb_idxs s)) * Nat.sqrt (length (cb_idxs s))) (length (cb_idxs s))) as [e|e]; [|reflexivity].
  exfalso. eapply Hq. symmetry. exact e.
Qed.

(** * Conditioning on a feature of the first half *)
(** Two binary features, the first of which has the logit [t] if it is one and 0 if it is zero. *)
Definition selfcond (t : R) (i L R : nat) : cbin :=
  mkCB 1 2 L R 1 (fun xv => Ok (mkT [size xv 0; 1; L; R; 1]%nat (fun idx => match get xv [nth 0 idx 0; 0; 0; 0]%nat with Some 1%nat => Fin t | _ => Fin 0 end)))
    [i] (mkT [1; 1; 1; L; R]%nat (fun _ => Fin 0)) (mkT [1; 1; 1; L; R]%nat (fun _ => Fin 0)).
Lemma selfcond_ok t i L R : (i < 2)%nat -> cb_ok (selfcond t i L R) 1.
Proof.
  intros Hi. unfold selfcond. constructor; cbn [cb_C cb_F cb_L cb_R cb_fn cb_idxs cb_base cb_unc]; try lia; try reflexivity.
  - intros j [<-|[]]; auto.
  - intros idx _. reflexivity.
  - intros idx _. reflexivity.
  - intros N xv Sx. eexists. split; [reflexivity|]. split; [unfold size; rewrite Sx; reflexivity|]. intros idx _. cbn [get]. destruct (get xv _) as [[|[|]]|]; reflexivity.
  - intros N xv xv' y y' S0 [Sx Gx] E1 E2. inversion E1. inversion E2. subst. cbn [shape]. split; [unfold size; rewrite Sx; reflexivity|].
    intros idx Hidx. cbn [shape] in Hidx. inbs. cbn [get nth]. rewrite Gx; [reflexivity|].
    rewrite S0. unfold size in *. rewrite S0 in *. cbn. repeat split; auto; lia.
Qed.
Lemma selfcond_lik g o E t i k w : accepted g o E -> e_C E = 1%nat -> e_F E = 2%nat -> (i < 2)%nat -> (k < e_K E)%nat -> In w (vectors 2 2) ->
  clik E (selfcond t i (e_L E) (e_R E)) (point 1 2 w) None 0 k =
  bpmf 1 (if (nth i w 0 =? 1)%nat then t else 0) (nth 0 w 0%nat) * bpmf 1 0 (nth 1 w 0%nat).
Proof.
  intros A EC EF Hi Hk Hw. pose proof (accepted_ok _ _ E A) as HE. set (s := selfcond t i (e_L E) (e_R E)).
  assert (Hf: cb_fits E s) by (split; cbn; auto).
  assert (Hs: cb_ok s 1) by (apply selfcond_ok; auto).
  destruct (clik_point E HE s 1 Hs Hf w k) as (xv & y & [Sv Gv] & Ey & El); auto.
  { rewrite EC, EF. exact Hw. }
  rewrite EC, EF in El. rewrite El. clear El. pose proof (fnet_wf E HE) as SW.
  rewrite (neteval_ext (fnet E) _ (fun c f l r => bpmf 1 (if (f =? 0)%nat then if (nth i w 0 =? 1)%nat then t else 0 else 0) (nth f w 0%nat) * 1) k SW Hk).
  - rewrite (neteval_scale (fnet E) (fun _ _ _ _ => 1) (fun c f => bpmf 1 (if (f =? 0)%nat then if (nth i w 0 =? 1)%nat then t else 0 else 0) (nth f w 0%nat)) k SW Hk);
      [|intros; lra|intros; left; apply bpmf_pos].
    rewrite (neteval_one (fnet E) (fun _ _ _ _ => 1) k SW Hk) by (intros ? ? ? ? _ _ _ _; reflexivity). cbn [fnet net_with nC nF]. rewrite EC, EF.
    rewrite !rprod_S, !rprod_0. cbn [Nat.eqb]. ring.
  - intros c f l r Hc Hf' Hl Hr. change (c < e_C E)%nat in Hc. change (f < e_F E)%nat in Hf'. rewrite EC in Hc. rewrite EF in Hf'.
    change (l < e_L E)%nat in Hl. change (r < e_R E)%nat in Hr. assert (c = 0)%nat by lia. subst c.
    unfold lval. rewrite Rmult_1_r. change (cb_total s) with 1%nat. change (0 * 2 + f)%nat with f. f_equal.
    change (cb_fn s xv) with (cb_fn (selfcond t i (e_L E) (e_R E)) xv) in Ey. cbn [selfcond cb_fn] in Ey. inversion Ey. clear Ey.
    assert (f = 0 \/ f = 1)%nat as [-> | ->] by lia.
    + unfold logit. change (0 <? 1 * 1)%nat with true. cbn [s selfcond cb_base get toR shape Nat.eqb cb_L cb_R cb_C].
      unfold size. rewrite Sv. cbn [nth].
      change (1 * 1)%nat with 1%nat. rewrite unravel_ravel by (cbn; repeat split; auto; lia). cbn [nth].
      rewrite Gv by (cbn; lia). cbn [cb_idxs s selfcond]. change (nth (0 * 1 + 0) [i] 0)%nat with i. change (0 * e_F E + i)%nat with i.
      destruct (nth i w 0%nat) as [|[|v]]; cbn [toR Nat.eqb]; ring.
    + reflexivity.
Qed.
Lemma sigm_0 : sigm 0 = 1 / 2.
Proof. unfold sigm. rewrite Ropp_0, exp_0. lra. Qed.
Lemma sigm_inj t u : sigm t = sigm u -> t = u.
Proof.
  unfold sigm. intros H. apply (f_equal Rinv) in H. rewrite !Rinv_inv in H. assert (E: exp (- t) = exp (- u)) by lra. apply exp_inv in E. lra.
Qed.
(** If a feature of the first half is conditioned on, the likelihoods of all data points need not sum to one. *)
Theorem C92_first_half_refuted : forall g o E k t, accepted g o E -> e_C E = 1%nat -> e_F E = 2%nat -> (k < e_K E)%nat ->
  let s := selfcond t 0 (e_L E) (e_R E) in
  cb_ok s 1 /\ cb_fits E s /\
  lsum (fun w => clik E s (point (e_C E) (e_F E) w) None 0 k) (vectors (S (cb_total s)) (e_C E * e_F E)) = 1 / 2 + sigm t /\
  (1 / 2 + sigm t = 1 <-> t = 0).
Proof.
  intros g o E k t A EC EF Hk s. split; [apply selfcond_ok; lia|]. split; [split; cbn; auto|]. split.
  - rewrite EC, EF. change (S (cb_total s)) with 2%nat. change (1 * 2)%nat with 2%nat.
    rewrite (lsum_ext _ (fun w => bpmf 1 (if (nth 0 w 0 =? 1)%nat then t else 0) (nth 0 w 0%nat) * bpmf 1 0 (nth 1 w 0%nat))).
    + cbn [vectors flat_map seq map app lsum nth Nat.eqb]. pose proof (bpmf_sum 1 0) as S1. rewrite !rsum_S, rsum_0 in S1.
      assert (B0: bpmf 1 0 0 = 1 / 2) by (unfold bpmf, Binomial.C; change (1 - 0)%nat with 1%nat; change (1 - 1)%nat with 0%nat; change (fact 1) with 1%nat; change (fact 0) with 1%nat; cbn [pow INR]; rewrite sigm_0; field).
      assert (B1: bpmf 1 t 1 = sigm t) by (unfold bpmf, Binomial.C; change (1 - 0)%nat with 1%nat; change (1 - 1)%nat with 0%nat; change (fact 1) with 1%nat; change (fact 0) with 1%nat; cbn [pow INR]; field).
      assert (B2: bpmf 1 0 1 = 1 / 2) by lra. rewrite B0, B1, B2. field.
    + intros w Hw. apply (selfcond_lik g o E t 0 k w A EC EF); auto.
  - split; [intros H; apply sigm_inj; rewrite sigm_0; lra|intros ->; rewrite sigm_0; lra].
Qed.

(** * A network of two features, two repetitions and three classes *)
Definition ex2_g : config := plain 2 1 3 2 2 3 1 0 TEinsum STopDown.
Definition ex2_o : oracle nat := choices [1; 1]%nat (fun r => if (r =? 0)%nat then [0; 1]%nat else [1; 0]%nat) third.
Lemma ex2_oracle : oracle_ok ex2_g ex2_o.
Proof.
  apply choices_ok.
  - cbn. perms.
  - intros r Hr. unfold perm_len, plain. cbn [g_struct g_R g_F]. rewrite !nval_nat. cbn [Nat.eqb].
    destruct r as [|[|]]; [| |lia]; cbn [Nat.eqb]; perms.
Qed.
Lemma ex2 : exists E, accepted ex2_g ex2_o E /\ e_F E = 2%nat /\ e_C E = 1%nat /\ e_K E = 3%nat.
Proof.
  destruct (build_succeeds ex2_g ex2_o) as (E & HE).
  - apply plain_valid; try lia; try lra; try congruence; simpl; lia.
  - reflexivity.
  - apply ex2_oracle.
  - exists 0%R. split; [constructor|lra].
  - cbn [ex2_g plain g_depth zval]. lia.
  - discriminate.
  - exists E. assert (A: accepted ex2_g ex2_o E) by (split; [reflexivity|apply ex2_oracle|exact HE]).
    destruct (build_inv ex2_g ex2_o E eq_refl ex2_oracle HE) as (_ & EF & EC & ER & EK).
    cbn [ex2_g plain g_F g_C g_R g_K] in *. rewrite nval_nat in *. auto.
Qed.
(** The hypotheses of the theorems hold, with the first feature conditioned on the second. *)
Example C92_ex : exists E s, accepted ex2_g ex2_o E /\ cb_ok s 1 /\ cb_fits E s /\ (1 < e_K E)%nat /\
  (forall i, In i (cb_idxs s) -> (1 * 1 <= i)%nat) /\ filled E s 1 (point (e_C E) (e_F E) [1; 0]%nat) (fun _ _ f => nth f [1; 0]%nat 0%nat) /\
  scope E (Some [0%nat]) /\ (forall f, In f [0%nat] -> ~ In f (cb_idxs s)) /\ In [1; 0]%nat (vectors (S (cb_total s)) (e_C E * e_F E)).
Proof.
  destruct ex2 as (E & A & EF & EC & EK). exists E, (selfcond 3 1 (e_L E) (e_R E)).
  split; [exact A|]. split; [apply selfcond_ok; lia|]. split; [split; cbn; auto|]. split; [lia|].
  split; [intros i [<-|[]]; lia|]. split.
  - rewrite EF, EC. split; [rewrite EF, EC; right; left; reflexivity|]. rewrite EF, EC. intros n c f Hn Hc Hf. assert (c = 0)%nat by lia. subst c. split; [reflexivity|].
    cbn [cb_total selfcond]. destruct f as [|[|]]; cbn; lia.
  - split; [intros f [<-|[]]; lia|]. split; [intros f [<-|[]] [H|[]]; lia|]. rewrite EC, EF. change (1 * 2)%nat with 2%nat. cbn. auto.
Qed.
(** The output depends on the value conditioned on: the conditional probabilities of the first feature differ. *)
Example C92_ex_dependent : exists E, accepted ex2_g ex2_o E /\ forall k, (k < e_K E)%nat ->
  clik E (selfcond 3 1 (e_L E) (e_R E)) (point 1 2 [1; 0]%nat) None 0 k < clik E (selfcond 3 1 (e_L E) (e_R E)) (point 1 2 [1; 1]%nat) None 0 k.
Proof.
  destruct ex2 as (E & A & EF & EC & EK). exists E. split; [exact A|]. intros k Hk.
  rewrite !(selfcond_lik _ _ E 3 1 k _ A EC EF) by (auto; cbn; auto). cbn [nth Nat.eqb].
  assert (B: forall t, bpmf 1 t 1 = sigm t) by (intros; unfold bpmf, Binomial.C; change (1 - 0)%nat with 1%nat; change (1 - 1)%nat with 0%nat; change (fact 1) with 1%nat; change (fact 0) with 1%nat; cbn [pow INR]; field). assert (B0: bpmf 1 0 0 = 1 / 2) by (unfold bpmf, Binomial.C; change (1 - 0)%nat with 1%nat; change (1 - 1)%nat with 0%nat; change (fact 1) with 1%nat; change (fact 0) with 1%nat; cbn [pow INR]; rewrite sigm_0; field).
  rewrite !B, B0, sigm_0. enough (1 / 2 < sigm 3) by lra. rewrite <- sigm_0. unfold sigm. apply Rinv_lt_contravar.
  - apply Rmult_lt_0_compat; apply Rplus_lt_0_compat; try lra; apply exp_pos.
  - apply Rplus_lt_compat_l. apply exp_increasing. lra.
Qed.
Example C92_ex_refuted : exists E s, accepted ex2_g ex2_o E /\ cb_ok s 1 /\ cb_fits E s /\
  lsum (fun w => clik E s (point (e_C E) (e_F E) w) None 0 0) (vectors (S (cb_total s)) (e_C E * e_F E)) <> 1.
Proof.
  destruct ex2 as (E & A & EF & EC & EK). destruct (C92_first_half_refuted _ _ E 0 3 A EC EF ltac:(lia)) as (H1 & H2 & H3 & H4).
  eexists E, _. split; [exact A|]. split; [exact H1|]. split; [exact H2|]. rewrite H3. intros H. apply H4 in H. lra.
Qed.
(** Three conditioning features. *)
Example C92_ex_rejects : exists E, accepted ex2_g ex2_o E /\
  cond_forward E (mkCB 1 2 1 1 1 (fun _ => Err RuntimeErr) [0; 1; 1]%nat (mkT [] (fun _ => Fin 0)) (mkT [] (fun _ => Fin 0))) (point 1 2 [0; 0]%nat) None = Err AssertionError /\
  cond_forward E (selfcond 3 1 (e_L E) (e_R E)) (point 1 2 [0; 2]%nat) None = Err ValueErr.
Proof.
  destruct ex2 as (E & A & EF & EC & EK). exists E. split; [exact A|]. split.
  - apply (C92_rejects_shapes _ _ E _ 1 _ _ A); cbn [cb_idxs length].
    + rewrite EF, EC. right. left. reflexivity.
    + rewrite EF. intros i [<-|[<-|[<-|[]]]]; lia.
    + intros [|[|m]]; nia.
  - apply (C92_rejects_values _ _ E _ 1 1 _ _ 0 0 1 A); [apply selfcond_ok; lia|split; cbn; auto|rewrite EF, EC; right; left; reflexivity|lia|lia|lia|].
    intros v Hv. cbn in Hv. inversion Hv. cbn. lia.
Qed.

Print Assumptions C92_forward.
Print Assumptions C92_rejects_values.
Print Assumptions C92_rejects_shapes.
Print Assumptions C92_normalized.
Print Assumptions C92_marginal.
Print Assumptions C92_missing_refuted.
Print Assumptions C92_first_half_refuted.
