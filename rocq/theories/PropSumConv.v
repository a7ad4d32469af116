(** C91: SumConv, the sum layer with weights shared between patches. *)
From Coq Require Import List Arith Lia Bool Reals Lra.
Import ListNotations.
From Verif Require Import Base RSum Num Tensor Prob Layers Circuit Net RefFwd RefSample RefLaw Leaf RefLeaf Einet Diff RefDiff ConvPc RefConv SumConv.
Local Open Scope R_scope.
Local Arguments Nat.div : simpl never. Local Arguments Nat.modulo : simpl never. Local Arguments Nat.sub : simpl never.
Local Arguments Nat.mul : simpl never. Local Arguments Nat.add : simpl never. Local Arguments clamp : simpl never. Local Arguments bdim : simpl never.

(** * Patches *)
Section Patches.
Local Open Scope nat_scope.
Lemma patch_view N C h w K n c i a j b : n < N -> c < C -> i < h -> a < K -> j < w -> b < K ->
  unravel [N; C; h * K; w * K] (ravel [N; C; h; K; w; K] [n; c; i; a; j; b]) = [n; c; i * K + a; j * K + b].
Proof.
  intros. replace (ravel [N; C; h; K; w; K] [n; c; i; a; j; b]) with (ravel [N; C; h * K; w * K] [n; c; i * K + a; j * K + b]).
  - apply unravel_ravel. cbn. repeat split; auto; nia.
  - cbn [ravel numel]. ring.
Qed.
Lemma unpatch_view N C h w K n c i a j b : n < N -> c < C -> i < h -> a < K -> j < w -> b < K ->
  unravel [N; C; h; K; w; K] (ravel [N; C; h * K; w * K] [n; c; i * K + a; j * K + b]) = [n; c; i; a; j; b].
Proof.
  intros. replace (ravel [N; C; h * K; w * K] [n; c; i * K + a; j * K + b]) with (ravel [N; C; h; K; w; K] [n; c; i; a; j; b]).
  - apply unravel_ravel. cbn. repeat split; auto.
  - cbn [ravel numel]. ring.
Qed.
Lemma patch_view5 N C h w K n c i a j b : n < N -> c < C -> i < h -> a < K -> j < w -> b < K ->
  unravel [N; C; 1; h * K; w * K] (ravel [N; C; h; K; w; K] [n; c; i; a; j; b]) = [n; c; 0; i * K + a; j * K + b].
Proof.
  intros. replace (ravel [N; C; h; K; w; K] [n; c; i; a; j; b]) with (ravel [N; C; 1; h * K; w * K] [n; c; 0; i * K + a; j * K + b]).
  - apply unravel_ravel. cbn. repeat split; auto; nia.
  - cbn [ravel numel]. ring.
Qed.
Lemma space1_view N C h w K n c i a j b : n < N -> c < C -> i < h -> a < K -> j < w -> b < K ->
  unravel [N; C; h; w; K; K] (ravel [N; 1; C; h; w; K; K] [n; 0; c; i; j; a; b]) = [n; c; i; j; a; b].
Proof.
  intros. replace (ravel [N; 1; C; h; w; K; K] [n; 0; c; i; j; a; b]) with (ravel [N; C; h; w; K; K] [n; c; i; j; a; b]).
  - apply unravel_ravel. cbn. repeat split; auto.
  - cbn [ravel numel]. ring.
Qed.
Lemma space2_view N C h w K n c i a j b : n < N -> c < C -> i < h -> a < K -> j < w -> b < K ->
  unravel [N; C; h; w; K; K] (ravel [N; C; 1; h; w; K; K] [n; c; 0; i; j; a; b]) = [n; c; i; j; a; b].
Proof.
  intros. replace (ravel [N; C; 1; h; w; K; K] [n; c; 0; i; j; a; b]) with (ravel [N; C; h; w; K; K] [n; c; i; j; a; b]).
  - apply unravel_ravel. cbn. repeat split; auto.
  - cbn [ravel numel]. ring.
Qed.
Lemma weights_view O I K o c a b : o < O -> c < I -> a < K -> b < K ->
  unravel [1; O; I; K; K] (ravel [1; O; I; 1; 1; K; K] [0; o; c; 0; 0; a; b]) = [0; o; c; a; b].
Proof.
  intros. replace (ravel [1; O; I; 1; 1; K; K] [0; o; c; 0; 0; a; b]) with (ravel [1; O; I; K; K] [0; o; c; a; b]).
  - apply unravel_ravel. cbn. repeat split; auto.
  - cbn [ravel numel]. ring.
Qed.
Lemma view_eq {A} (s s' : list nat) (g : list nat -> A) : numel s = numel s' -> view s (mkT s' g) = Ok (mkT s (fun idx => g (unravel s' (ravel s idx)))).
Proof. intros E. unfold view. cbn [shape get]. rewrite E, Nat.eqb_refl. reflexivity. Qed.
Lemma div_patch h K d : d < h * K -> exists i a, i < h /\ a < K /\ d = i * K + a /\ a = d mod K.
Proof.
  intros H. assert (K <> 0) by lia. exists (d / K), (d mod K). pose proof (Nat.div_mod d K H0). pose proof (Nat.mod_upper_bound d K H0).
  repeat split; auto; [apply Nat.div_lt_upper_bound; lia|lia].
Qed.
End Patches.

(** * The forward pass *)
(** A layer and an input that fit: K divides the sizes of the image. *)
Record sconv_fits (s : sconv) (N H W : nat) (x : tensor num) : Prop := {
  sf_k : (0 < sc_k s)%nat;
  sf_h : Nat.divide (sc_k s) H;
  sf_w : Nat.divide (sc_k s) W;
  sf_logits : shape (sc_logits s) = [sc_out s; sc_in s; sc_k s; sc_k s];
  sf_x : shape x = [N; sc_in s; H; W] }.

Lemma permute6 {A} (g : list nat -> A) a b c d e f : permute [0; 1; 2; 4; 3; 5]%nat (mkT [a; b; c; d; e; f] g) =
  mkT [a; b; c; e; d; f] (fun i => g [nth 0 i 0; nth 1 i 0; nth 2 i 0; nth 4 i 0; nth 3 i 0; nth 5 i 0]%nat).
Proof. reflexivity. Qed.
Lemma lse_at2 (g : list nat -> num) a b c d e f k : tlogsumexp 2 (mkT [a; b; c; d; e; f; k] g) =
  mkT [a; b; d; e; f; k] (fun i => nlogsumexp c (fun j => g (insert_nth 2 j i))).
Proof. reflexivity. Qed.
Lemma badd7 (gx gl : list nat -> num) N O I h w K : exists g, badd (mkT [N; 1; I; h; w; K; K]%nat gx) (mkT [1; O; I; 1; 1; K; K]%nat gl) = Ok (mkT [N; O; I; h; w; K; K] g) /\
  forall n o c i j a b, (n < N)%nat -> (o < O)%nat -> (c < I)%nat -> (i < h)%nat -> (j < w)%nat -> (a < K)%nat -> (b < K)%nat ->
    g [n; o; c; i; j; a; b] = nadd (gx [n; 0; c; i; j; a; b]%nat) (gl [0; o; c; 0; 0; a; b]%nat).
Proof.
  unfold badd. bcast. eexists. split; [reflexivity|]. intros. cbn [get]. unfold bproj. cbn [length]. rewrite !Nat.sub_diag. cbn [skipn bidx]. clamps. reflexivity.
Qed.

Lemma sconv_forward_get s N H W x : sconv_fits s N H W x -> exists y, sconv_forward s x = Ok y /\ shape y = [N; sc_out s; H; W] /\
  forall n o h w, (n < N)%nat -> (o < sc_out s)%nat -> (h < H)%nat -> (w < W)%nat ->
    get y [n; o; h; w] = nlogsumexp (sc_in s) (fun c => nadd (get x [n; c; h; w]) (get (tlog_softmax 1 (sc_logits s)) [o; c; h mod sc_k s; w mod sc_k s]%nat)).
Proof.
  intros [HK (h & ->) (w & ->) Sl Sx]. unfold sconv_forward, size4. rewrite Sx. cbn [bind]. set (K := sc_k s) in *.
  rewrite (proj2 (Nat.eqb_neq K 0)) by lia. cbn [negb guard bind]. rewrite !Nat.mod_mul, !Nat.div_mul by lia. cbn [Nat.eqb assert guard bind].
  set (lw := tlog_softmax 1 (sc_logits s)). assert (Slw: shape lw = [sc_out s; sc_in s; K; K]) by exact Sl. clearbody lw.
  destruct x as [sx gx], lw as [sl gl]. cbn [shape] in Sx, Slw. subst sx sl. cbn [get].
  rewrite view_eq by (cbn [numel]; ring). cbn [bind]. rewrite permute6.
  rewrite view_eq by (cbn [numel]; ring). cbn [bind]. unfold unsqueeze. cbn [shape insert_nth firstn skipn app get].
  rewrite view_eq by (cbn [numel]; ring). cbn [bind].
  match goal with |- context [badd (mkT _ ?u) (mkT _ ?v)] => destruct (badd7 u v N (sc_out s) (sc_in s) h w K) as (g & -> & Hg) end. cbn [bind].
  rewrite lse_at2, permute6. rewrite view_eq by (cbn [numel]; ring). eexists. split; [reflexivity|]. split; [reflexivity|].
  intros n o hh ww Hn Ho Hh Hw. destruct (div_patch h K hh Hh) as (i & a & Hi & Ha & -> & Ea). destruct (div_patch w K ww Hw) as (j & b & Hj & Hb & -> & Eb).
  cbn [get]. rewrite unpatch_view by auto. cbn [nth].
  apply nlogsumexp_ext. intros c Hc. cbn [insert_nth firstn skipn app]. rewrite Hg by auto.
  f_equal.
  - rewrite space1_view by auto. cbn [nth]. rewrite patch_view by auto. reflexivity.
  - rewrite weights_view by auto. cbn [remove_nth firstn skipn app]. rewrite <- Ea, <- Eb. reflexivity.
Qed.

(** The weight of input channel [c] for output channel [o] at position (h, w): the patch of weights repeats. *)
Definition patch_logit (s : sconv) (o c h w : nat) : R := toR (get (sc_logits s) [o; c; h mod sc_k s; w mod sc_k s]%nat).
Definition patch_weight (s : sconv) (o c h w : nat) : R := exp (patch_logit s o c h w) / rsum (sc_in s) (fun k => exp (patch_logit s o k h w)).
Definition finite (t : tensor num) : Prop := forall idx, inb (shape t) idx -> isfin (get t idx) = true.

Lemma patch_weight_sum s o h w : (0 < sc_in s)%nat -> (forall c, 0 < patch_weight s o c h w) /\ rsum (sc_in s) (fun c => patch_weight s o c h w) = 1.
Proof.
  intros HI. split.
  - intros c. apply (rsoftmax_pos (sc_in s) (fun k => patch_logit s o k h w) c HI).
  - apply (rsoftmax_sum (sc_in s) (fun k => patch_logit s o k h w) HI).
Qed.

(** Every position is a mixture of the channels at this position, and the weights depend on the position in the patch only. *)
Theorem C91_forward s N H W x : sconv_fits s N H W x -> (0 < sc_in s)%nat -> finite (sc_logits s) -> finite x ->
  exists y, sconv_forward s x = Ok y /\ shape y = [N; sc_out s; H; W] /\
    forall n o h w, (n < N)%nat -> (o < sc_out s)%nat -> (h < H)%nat -> (w < W)%nat ->
      get y [n; o; h; w] = Fin (ln (rsum (sc_in s) (fun c => patch_weight s o c h w * exp (toR (get x [n; c; h; w]))))).
Proof.
  intros Hf HI Fl Fx. destruct (sconv_forward_get s N H W x Hf) as (y & E & Sy & G). exists y. split; [exact E|]. split; [exact Sy|].
  intros n o h w Hn Ho Hh Hw. rewrite G by auto. destruct Hf as [HK _ _ Sl Sx].
  apply nlogsumexp_ln; auto. intros c Hc. destruct (patch_weight_sum s o h w HI) as [Hp _]. pose proof (Hp c) as Hpc.
  assert (Ex: get x [n; c; h; w] = Fin (toR (get x [n; c; h; w]))).
  { apply isfin_Fin. apply Fx. rewrite Sx. cbn. auto. }
  assert (Ma: (h mod sc_k s < sc_k s)%nat) by (apply Nat.mod_upper_bound; lia).
  assert (Mb: (w mod sc_k s < sc_k s)%nat) by (apply Nat.mod_upper_bound; lia).
  assert (Z: size (sc_logits s) 1 = sc_in s) by (unfold size; rewrite Sl; reflexivity).
  assert (El: get (tlog_softmax 1 (sc_logits s)) [o; c; h mod sc_k s; w mod sc_k s]%nat = Fin (ln (patch_weight s o c h w))).
  { rewrite (log_softmax_get _ 1 _ (fun k => patch_logit s o k h w)); cbn [nth length]; try rewrite Z; try lia; [reflexivity|].
    intros k Hk. cbn [set_nth]. apply isfin_Fin. apply Fl. rewrite Sl. cbn. auto. }
  split; [apply Rmult_lt_0_compat; [exact Hpc|apply exp_pos]|].
  rewrite Ex, El. cbn [nadd]. f_equal. rewrite ln_mult, ln_exp by (auto; apply exp_pos). cbn [toR]. ring.
Qed.

(** So a value lies between the least and the greatest value of the channels at its position. *)
Theorem C91_between s N H W x : sconv_fits s N H W x -> (0 < sc_in s)%nat -> finite (sc_logits s) -> finite x ->
  exists y, sconv_forward s x = Ok y /\ forall n o h w lo hi, (n < N)%nat -> (o < sc_out s)%nat -> (h < H)%nat -> (w < W)%nat ->
    (forall c, (c < sc_in s)%nat -> lo <= toR (get x [n; c; h; w]) <= hi) -> exists r, get y [n; o; h; w] = Fin r /\ lo <= r <= hi.
Proof.
  intros Hf HI Fl Fx. destruct (C91_forward s N H W x Hf HI Fl Fx) as (y & E & _ & G). exists y. split; [exact E|].
  intros n o h w lo hi Hn Ho Hh Hw B. rewrite G by auto. eexists. split; [reflexivity|]. destruct (patch_weight_sum s o h w HI) as [Hp Hs].
  set (q := rsum _ _). assert (L: exp lo <= q).
  { unfold q. replace (exp lo) with (rsum (sc_in s) (fun c => patch_weight s o c h w) * exp lo) by (rewrite Hs; ring).
    rewrite <- rsum_scal_r. apply rsum_le. intros c Hc. apply Rmult_le_compat_l; [left; apply Hp|]. destruct (B c Hc) as [[B1|B1] _]; [left; apply exp_increasing; auto|rewrite B1; lra]. }
  assert (U: q <= exp hi).
  { unfold q. replace (exp hi) with (rsum (sc_in s) (fun c => patch_weight s o c h w) * exp hi) by (rewrite Hs; ring).
    rewrite <- rsum_scal_r. apply rsum_le. intros c Hc. apply Rmult_le_compat_l; [left; apply Hp|]. destruct (B c Hc) as [_ [B1|B1]]; [left; apply exp_increasing; auto|rewrite B1; lra]. }
  pose proof (exp_pos lo). split.
  - rewrite <- (ln_exp lo). destruct L as [L|L]; [left; apply ln_increasing; auto|rewrite L; lra].
  - rewrite <- (ln_exp hi) at 1. destruct U as [U|U]; [left; apply ln_increasing; [lra|auto]|rewrite U; lra].
Qed.

(** The layer equals a SumLayer for the whole image whose logits repeat the patch (:195-211, the alternative in the comments). *)
Definition tiled (s : sconv) (H W : nat) : csum :=
  mkCS (sc_in s) (sc_out s) H W (mkT [sc_out s; sc_in s; H; W] (fun idx => match idx with
    | [o; c; h; w] => get (sc_logits s) [o; c; h mod sc_k s; w mod sc_k s]%nat | _ => NaN end)).
Theorem C91_tiled s N H W x : sconv_fits s N H W x -> exists y y', sconv_forward s x = Ok y /\ csum_forward (tiled s H W) x = Ok y' /\
  shape y = [N; sc_out s; H; W] /\ shape y' = shape y /\
  forall n o h w, (n < N)%nat -> (o < sc_out s)%nat -> (h < H)%nat -> (w < W)%nat -> get y' [n; o; h; w] = get y [n; o; h; w].
Proof.
  intros Hf. destruct (sconv_forward_get s N H W x Hf) as (y & E & Sy & G). destruct Hf as [HK _ _ Sl Sx].
  destruct x as [sx gx]. cbn [shape] in Sx. subst sx. unfold csum_forward, tiled. cbn [cs_logits].
  unfold tlog_softmax at 1. cbn [shape]. unfold unsqueeze. cbn [shape insert_nth]. unfold badd. bcast. cbn [bind]. unfold tlogsumexp, reduce. cbn [shape remove_nth].
  exists y. eexists. split; [exact E|]. split; [reflexivity|]. split; [exact Sy|]. rewrite Sy. split; [reflexivity|].
  intros n o h w Hn Ho Hh Hw. rewrite G by auto. unfold size. cbn [get shape nth insert_nth]. apply nlogsumexp_ext. intros c Hc. gets.
  f_equal. unfold tlog_softmax. cbn [get]. f_equal. unfold size. rewrite Sl. reflexivity.
Qed.

(** Images that are no multiple of the kernel are rejected. *)
Theorem C91_rejects s N C H W x : (0 < sc_k s)%nat -> shape x = [N; C; H; W] -> ~ (Nat.divide (sc_k s) H /\ Nat.divide (sc_k s) W) ->
  sconv_forward s x = Err AssertionError.
Proof.
  intros HK Sx D. unfold sconv_forward, size4. rewrite Sx. cbn [bind]. rewrite (proj2 (Nat.eqb_neq (sc_k s) 0)) by lia. cbn [negb guard bind].
  destruct (Nat.eqb_spec (H mod sc_k s) 0) as [A|A]; [|reflexivity]. destruct (Nat.eqb_spec (W mod sc_k s) 0) as [B|B]; [|reflexivity].
  exfalso. apply D. split; apply Nat.mod_divide; auto; lia.
Qed.

(** * Sampling *)
Lemma bmul7 (gl gx : list nat -> num) N O I h w K : exists g, bmul (mkT [1; O; I; 1; 1; K; K]%nat gl) (mkT [N; O; 1; h; w; K; K]%nat gx) = Ok (mkT [N; O; I; h; w; K; K] g) /\
  forall n o c i j a b, (n < N)%nat -> (o < O)%nat -> (c < I)%nat -> (i < h)%nat -> (j < w)%nat -> (a < K)%nat -> (b < K)%nat ->
    g [n; o; c; i; j; a; b] = nmul (gl [0; o; c; 0; 0; a; b]%nat) (gx [n; o; 0; i; j; a; b]%nat).
Proof.
  unfold bmul. bcast. eexists. split; [reflexivity|]. intros. cbn [get]. unfold bproj. cbn [length]. rewrite !Nat.sub_diag. cbn [skipn bidx]. clamps. reflexivity.
Qed.
Lemma sum_at1 (g : list nat -> num) a b c d e f k : tsum 1 (mkT [a; b; c; d; e; f; k] g) =
  mkT [a; c; d; e; f; k] (fun i => nsum b (fun j => g (insert_nth 1 j i))).
Proof. reflexivity. Qed.

(** A layer and parents that fit: at every position one output channel [i n (h * W + w)] is selected. *)
Record parents_fit (s : sconv) (N H W : nat) (p : tensor num) (i : nat -> nat -> nat) : Prop := {
  pf_k : (0 < sc_k s)%nat;
  pf_h : Nat.divide (sc_k s) H;
  pf_w : Nat.divide (sc_k s) W;
  pf_logits : shape (sc_logits s) = [sc_out s; sc_in s; sc_k s; sc_k s];
  pf_fin : finite (sc_logits s);
  pf_p : hotat p N (sc_out s) H W i }.

(** The selected weights of a channel are normalized over the rows of the image, not over the channels (:265, dim=2). *)
Theorem C91_weights s N H W p i T : parents_fit s N H W p i -> T <> 0 ->
  exists lw, sconv_select s T p = Ok lw /\ shape lw = [N; sc_in s; H; W] /\
    forall n c h w, (n < N)%nat -> (c < sc_in s)%nat -> (h < H)%nat -> (w < W)%nat ->
      get lw [n; c; h; w] = Fin (ln (exp (patch_logit s (i n (h * W + w)%nat) c h w / T) /
         rsum H (fun h' => exp (patch_logit s (i n (h' * W + w)%nat) c h' w / T)))).
Proof.
  intros [HK (h & ->) (w & ->) Sl Fl (Sp & Hi & Hp)] HT. unfold sconv_select, size4. rewrite Sl. cbn [bind]. unfold finite in Fl. rewrite Sl in Fl.
  unfold patch_logit. set (K := sc_k s) in *. destruct p as [sp gp]. cbn [shape get] in Sp, Hp. subst sp.
  destruct (sc_logits s) as [sl gl] eqn:El. cbn [shape] in Sl. subst sl. cbn [get] in Fl |- *.
  unfold size. cbn [shape nth]. rewrite (proj2 (Nat.eqb_neq K 0)) by lia. cbn [negb guard bind]. rewrite !Nat.div_mul by lia.
  unfold unsqueeze at 1. cbn [shape insert_nth firstn skipn app get]. rewrite view_eq by (cbn [numel]; ring). cbn [bind]. rewrite permute6.
  rewrite view_eq by (cbn [numel]; ring). cbn [bind]. unfold unsqueeze. cbn [shape insert_nth firstn skipn app get].
  rewrite view_eq by (cbn [numel]; ring). cbn [bind]. rewrite ioh_eq by reflexivity.
  match goal with |- context [bmul (mkT _ ?u) (mkT _ ?v)] => destruct (bmul7 u v N (sc_out s) (sc_in s) h w K) as (g & -> & Hg) end. cbn [bind].
  rewrite sum_at1. cbn [shape]. rewrite eqb_list_refl. cbn [assert guard bind]. rewrite permute6. rewrite view_eq by (cbn [numel]; ring). cbn [bind].
  eexists. split; [reflexivity|]. split; [reflexivity|]. intros n c hh ww Hn Hc Hh Hw.
  match goal with |- get (logits_to_log_weights ?lg 2 T) _ = _ =>
    rewrite (ltlw_get lg 2 T _ (fun k => toR (gl [i n (k * (w * K) + ww)%nat; c; k mod K; ww mod K]%nat))); [|exact HT|cbn; lia| |] end.
  - reflexivity.
  - unfold size. cbn [nth shape]. auto.
  - unfold size. cbn [nth shape set_nth]. intros k Hk. cbn [get].
    destruct (div_patch h K k Hk) as (i0 & a & Hi0 & Ha & -> & Ea). destruct (div_patch w K ww Hw) as (j & b & Hj & Hb & -> & Eb).
    rewrite unpatch_view by auto. cbn [nth insert_nth firstn skipn app]. rewrite <- Ea, <- Eb.
    assert (Hd: ((i0 * K + a) * (w * K) + (j * K + b) < h * K * (w * K))%nat) by (apply flat_lt; auto). pose proof (Hi n _ Hn Hd) as Hin.
    rewrite (nsum_ext _ _ (fun o => nmul (gl [o; c; a; b]) (hot o (i n ((i0 * K + a) * (w * K) + (j * K + b))%nat)))).
    + rewrite nsum_hot; auto.
      * apply isfin_Fin. isf Fl.
      * intros o Ho. isf Fl.
    + intros o Ho. rewrite Hg by auto. rewrite weights_view by auto. rewrite space2_view by auto. cbn [nth remove_nth firstn skipn app].
      rewrite patch_view5 by auto. cbn [remove_nth]. rewrite Hp by auto. reflexivity.
Qed.

Definition row_weight (s : sconv) (T : R) (i : nat -> nat -> nat) (H W n c h w : nat) : R :=
  exp (patch_logit s (i n (h * W + w)%nat) c h w / T) / rsum H (fun h' => exp (patch_logit s (i n (h' * W + w)%nat) c h' w / T)).
Lemma row_weight_pos s T i H W n c h w : (0 < H)%nat -> 0 < row_weight s T i H W n c h w.
Proof. intros HH. apply (rsoftmax_pos H (fun h' => patch_logit s (i n (h' * W + w)%nat) c h' w / T) h HH). Qed.
Lemma sconv_cw s N H W p i T : parents_fit s N H W p i -> T <> 0 ->
  exists lw, sconv_select s T p = Ok lw /\ cw lw N (sc_in s) H W (fun n d c => row_weight s T i H W n c (d / W) (d mod W)).
Proof.
  intros Hf HT. destruct (C91_weights s N H W p i T Hf HT) as (lw & E & S & G). exists lw. split; [exact E|]. split; [exact S|].
  intros n c h w Hn Hc Hh Hw. rewrite flat_div, flat_mod by auto. split; [apply row_weight_pos; lia|]. apply G; auto.
Qed.

Section Draws.
Context {V : Type}.
Variable EL : list nat -> (V -> R) -> R.
Hypothesis HEL : leaf_expectation EL.

Lemma catp_any K (p : nat -> R) : (forall k, (k < K)%nat -> 0 < p k) ->
  forall k, (k < K)%nat -> catp (map (fun k => Fin (ln (p k))) (seq 0 K)) k = p k / rsum K p.
Proof.
  intros Hp k Hk. unfold catp. rewrite nth_map_seq by auto. rewrite lsum_map. cbn [pval]. rewrite exp_ln by auto. f_equal. f_equal.
  apply lsum_ext. intros j Hj. apply in_seq0 in Hj. apply exp_ln; auto.
Qed.
Lemma cat_dim_any lw N S H W p (g : nat -> nat -> nat -> R) : cw lw N S H W p ->
  expect EL (cat_dim 1 lw) (fun k => rprod N (fun n => rprod (H * W) (fun d => g n d (get k [n; d / W; d mod W]%nat)))) =
  rprod N (fun n => rprod (H * W) (fun d => rsum S (fun k => p n d k / rsum S (p n d) * g n d k))).
Proof.
  intros Hw. unfold cat_dim. pose proof Hw as [Sw Gw]. rewrite Sw. cbn [remove_nth].
  set (hh := fun idx k => match idx with [n; y; x] => g n (y * W + x)%nat k | _ => 1 end).
  etransitivity; [apply (expect_ext EL HEL _ _ (fun t => lprod (fun idx => hh idx (get t idx)) (all_idx [N; H; W])))|].
  { intros t. rewrite lprod_idx3. apply rprod_ext. intros n Hn. rewrite rprod_mul. apply rprod2_ext. intros y x Hy Hx.
    rewrite flat_div, flat_mod by auto. reflexivity. }
  rewrite expect_draw_tensor by auto. rewrite lprod_idx3. apply rprod_ext. intros n Hn. rewrite rprod_mul. apply rprod2_ext. intros y x Hy Hx.
  cbn [expect hh]. rewrite (cat_dim_row _ _ _ _ _ _ _ _ _ Hw) by auto. rewrite map_length, seq_length. apply rsum_ext. intros k Hk.
  rewrite catp_any; auto. intros k' Hk'. apply (Gw n k' y x); auto.
Qed.

Lemma condition_cw x lw N S H W p v : (0 < S)%nat -> cw lw N S H W p -> crep x N S H W v ->
  exists lw', csum_condition x lw = Ok lw' /\ cw lw' N S H W (fun n d k => p n d k * v n d k 0%nat / rsum S (fun k => p n d k * v n d k 0%nat)).
Proof.
  intros HS [Slw Glw] [Sx Gx]. unfold csum_condition, badd. destruct (bop_same nadd lw x) as (t & Et & St & Gt); [congruence|]. rewrite Et. cbn [bind].
  rewrite Slw in St, Gt. destruct t as [st gt]. cbn [shape] in St. subst st.
  unfold tlogsumexp_keep, reduce_keep, size. cbn [shape set_nth nth]. bcast.
  eexists. split; [reflexivity|]. split; [reflexivity|].
  intros n k h w Hn Hk Hh Hw. set (d := (h * W + w)%nat). set (q := fun k => p n d k * v n d k 0%nat).
  assert (Q: forall k, (k < S)%nat -> 0 < q k /\ gt [n; k; h; w] = Fin (ln (q k))).
  { intros j Hj. destruct (Glw n j h w) as [P1 G1]; auto. destruct (Gx n j h w) as [P2 G2]; auto. fold d in P1, G1, P2, G2.
    split; [apply Rmult_lt_0_compat; auto|]. change (gt [n; j; h; w]) with (get (mkT [N; S; H; W] gt) [n; j; h; w]). rewrite Gt by (simpl; auto).
    rewrite G1, G2. cbn [nadd]. rewrite ln_mul by auto. reflexivity. }
  change (p n d k * v n d k 0%nat) with (q k).
  assert (PS: 0 < rsum S q) by (apply rsum_pos; auto; intros; apply Q; auto).
  split; [apply Rdiv_lt_0_compat; [apply Q; auto|auto]|].
  gets. rewrite (nlogsumexp_ln S _ q); auto. destruct (Q k Hk) as [P1 ->]. unfold nsub. simpl. f_equal.
  unfold Rdiv. rewrite <- (ln_mul (q k)); auto; [rewrite ln_Rinv; auto|apply Rinv_0_lt_compat; auto].
Qed.

(** What a draw gives: at every position independently a channel, in proportion to its row weight times its value in the
    cached forward pass ([v], one without evidence).  [g] is any function of row, position and channel; cprod evaluates it at
    the encoded draw. *)
Definition drawn (s : sconv) (T : R) (i : nat -> nat -> nat) (H W : nat) (v : nat -> vals) (n d c : nat) : R :=
  row_weight s T i H W n c (d / W) (d mod W) * v n d c 0%nat.
Theorem C91_draws s N H W p i T ca v g : parents_fit s N H W p i -> (0 < sc_in s)%nat -> T <> 0 -> cache_ok ca N (sc_in s) H W v ->
  (forall supp r, outcome supp (@sconv_sample V s T false ca p) r -> exists o j, r = Ok o /\ hotat o N (sc_in s) H W j) /\
  expect EL (sconv_sample s T false ca p) (fun o => cprod N (sc_in s) H W o g) =
  rprod N (fun n => rprod (H * W) (fun d => rsum (sc_in s) (fun c =>
    drawn s T i H W v n d c / rsum (sc_in s) (drawn s T i H W v n d) * g n d c 0%nat))).
Proof.
  intros Hf HS HT Hc. destruct (sconv_cw s N H W p i T Hf HT) as (lw0 & E0 & Hw0).
  assert (Q: exists lw q, match ca with None => Ok lw0 | Some x => csum_condition x lw0 end = Ok lw /\ cw lw N (sc_in s) H W q /\
     forall n d c, (n < N)%nat -> (d < H * W)%nat -> (c < sc_in s)%nat ->
       q n d c / rsum (sc_in s) (q n d) = drawn s T i H W v n d c / rsum (sc_in s) (drawn s T i H W v n d)).
  { destruct ca as [x|]; cbn [cache_ok] in Hc.
    - destruct (condition_cw x lw0 N (sc_in s) H W _ v HS Hw0 Hc) as (lw & E & Hw). exists lw. eexists. split; [exact E|]. split; [exact Hw|].
      intros n d c Hn Hd Hcc. cbn beta. change (fun k => row_weight s T i H W n k (d / W) (d mod W) * v n d k 0%nat) with (drawn s T i H W v n d).
      change (row_weight s T i H W n c (d / W) (d mod W) * v n d c 0%nat) with (drawn s T i H W v n d c).
      assert (PS: 0 < rsum (sc_in s) (drawn s T i H W v n d)).
      { apply rsum_pos; auto. intros k Hk. apply Rmult_lt_0_compat; [apply row_weight_pos; destruct H; [cbn in Hd|]; lia|].
        apply (crep_pos x N (sc_in s) H W v n Hc Hn); auto. }
      assert (E1: rsum (sc_in s) (fun k => drawn s T i H W v n d k / rsum (sc_in s) (drawn s T i H W v n d)) = 1) by (unfold Rdiv; rewrite rsum_scal_r; field; lra).
      etransitivity; [|apply Rmult_1_r]. unfold Rdiv at 1. f_equal. rewrite <- Rinv_1. f_equal. exact E1.
    - exists lw0. eexists. split; [reflexivity|]. split; [exact Hw0|]. intros n d c Hn Hd Hcc. cbn beta. unfold drawn. rewrite Hc by auto. rewrite Rmult_1_r.
      f_equal. apply rsum_ext. intros k Hk. rewrite Hc by auto. ring. }
  destruct Q as (lw & q & E & Hw & Hq).
  assert (EF: @sconv_sample V s T false ca p = (index <~ cat_dim 1 lw ;; lift (straight_through lw index 1))).
  { unfold sconv_sample, simple_draw. rewrite E0. cbn [lift mbind]. rewrite E. reflexivity. }
  rewrite EF. split.
  - intros supp r Ho. apply outcome_bind in Ho as [(e & Ho & ->)|(k & Ho & Hr)].
    + destruct (cat_dim_outcome _ _ _ _ _ _ _ _ HS Hw Ho) as (t & E' & _). discriminate.
    + destruct (cat_dim_outcome _ _ _ _ _ _ _ _ HS Hw Ho) as (t & E' & St & Gt). inversion E'; subst t.
      destruct (straight_ok lw k N (sc_in s) H W _ Hw St Gt) as (o & Eo & Hh). rewrite Eo in Hr. apply outcome_ret_inv in Hr. eauto.
  - rewrite expect_bind by auto.
    transitivity (expect EL (cat_dim 1 lw) (fun k => rprod N (fun n => rprod (H * W) (fun d => g n d (get k [n; d / W; d mod W]%nat) 0%nat)))).
    + apply expect_ext_outcome; auto. intros k Ho. destruct (cat_dim_outcome _ _ _ _ _ _ _ _ HS Hw Ho) as (t & E' & St & Gt). inversion E'; subst t.
      destruct (straight_ok lw k N (sc_in s) H W _ Hw St Gt) as (o & Eo & Hh). rewrite Eo. cbn [lift expect].
      rewrite (cprod_hot _ _ _ _ _ _ _ Hh). reflexivity.
    + rewrite (cat_dim_any lw N (sc_in s) H W _ (fun n d k => g n d k 0%nat) Hw). apply rprod2_ext. intros n d Hn Hd.
      apply rsum_ext. intros c Hcc. rewrite Hq by auto. reflexivity.
Qed.

(** On images of one row the weights play no part: the channels are drawn uniformly ... *)
Theorem C91_uniform s N W p i T g : parents_fit s N 1 W p i -> (0 < sc_in s)%nat -> T <> 0 ->
  expect EL (sconv_sample s T false None p) (fun o => cprod N (sc_in s) 1 W o g) =
  rprod N (fun n => rprod (1 * W) (fun d => rsum (sc_in s) (fun c => / INR (sc_in s) * g n d c 0%nat))).
Proof.
  intros Hf HS HT. destruct (C91_draws s N 1 W p i T None (fun _ _ _ _ => 1) g Hf HS HT) as [_ ->]; [cbn [cache_ok]; auto|].
  assert (R1: forall n c d, (d < 1 * W)%nat -> drawn s T i 1 W (fun _ _ _ _ => 1) n d c = 1).
  { intros n c d Hd. unfold drawn. rewrite Rmult_1_r. unfold row_weight. rewrite rsum_S, rsum_0, Rplus_0_l. rewrite (Nat.div_small d W) by lia. apply Rinv_r. apply Rgt_not_eq, exp_pos. }
  apply rprod_ext. intros n Hn. apply rprod_ext. intros d Hd. apply rsum_ext. intros c Hc. f_equal.
  rewrite R1 by auto. rewrite (rsum_ext _ _ (fun _ => 1)) by (intros; apply R1; auto). rewrite rsum_const. rewrite Rmult_1_r. unfold Rdiv. ring.
Qed.

(** ... and mpe selects the first channel. *)
Lemma argmax_const n (f : nat -> num) (r : R) : (forall k, (k < n)%nat -> f k = Fin r) -> nargmax n f = 0%nat.
Proof.
  intros Hf. unfold nargmax. assert (G: forall k i, (i + k <= n)%nat -> (0 < i)%nat -> argmax_aux f k i 0 = 0%nat).
  { induction k; intros i Hi H0; [reflexivity|]. cbn [argmax_aux]. rewrite !Hf by lia. cbn [nltb]. destruct (Rlt_dec r r); [lra|]. apply IHk; lia. }
  destruct n as [|n]; [reflexivity|]. apply G; cbn; lia.
Qed.
Theorem C91_first_channel s N W p i T : parents_fit s N 1 W p i -> (0 < sc_in s)%nat -> T <> 0 ->
  exists o, @sconv_sample V s T true None p = Ret o /\ hotat o N (sc_in s) 1 W (fun _ _ => 0%nat).
Proof.
  intros Hf HS HT. destruct (sconv_cw s N 1 W p i T Hf HT) as (lw & E & Hw). unfold sconv_sample, simple_draw. rewrite E. cbn [lift mbind].
  set (k := targmax 1 (tsoftmax 1 lw)). pose proof Hw as [Sw Gw].
  assert (Sk: shape k = [N; 1; W]%nat) by (unfold k, targmax, reduce, tsoftmax; cbn [shape]; rewrite Sw; reflexivity).
  assert (Z: size lw 1 = sc_in s) by (unfold size; rewrite Sw; reflexivity).
  assert (Gk: forall n h w, (n < N)%nat -> (h < 1)%nat -> (w < W)%nat -> get k [n; h; w] = 0%nat).
  { intros n h w Hn Hh Hww. unfold k, targmax, reduce. cbn [get]. replace (size (tsoftmax 1 lw) 1) with (sc_in s) by (symmetry; exact Z).
    assert (G0: forall c, (c < sc_in s)%nat -> get lw [n; c; h; w] = Fin 0).
    { intros c Hc. destruct (Gw n c h w Hn Hc Hh Hww) as [_ ->]. f_equal. rewrite flat_div, flat_mod by auto. replace h with 0%nat by lia.
      unfold row_weight. rewrite rsum_S, rsum_0, Rplus_0_l. unfold Rdiv at 1. rewrite Rinv_r by (apply Rgt_not_eq, exp_pos). apply ln_1. }
    apply (argmax_const _ _ (/ INR (sc_in s))). intros c Hc. cbn [insert_nth]. unfold tsoftmax. cbn [get]. rewrite Z.
    rewrite (nsum_fin _ _ (fun _ => 1)) by (intros j Hj; cbn [set_nth]; rewrite G0 by auto; cbn [nexp]; rewrite exp_0; reflexivity).
    rewrite G0 by auto. cbn [nexp]. rewrite exp_0, rsum_const, Rmult_1_r. rewrite ndiv_fin by (apply not_0_INR; lia). f_equal. unfold Rdiv. ring. }
  destruct (straight_ok lw k N (sc_in s) 1 W _ Hw Sk) as (o & Eo & So & Ho & Go).
  { intros n h w Hn Hh Hww. rewrite Gk by auto. auto. }
  exists o. split; [rewrite Eo; reflexivity|]. split; [exact So|]. split; [auto|].
  intros n c h w Hn Hc Hh Hww. rewrite Go by auto. rewrite flat_div, flat_mod by auto. rewrite Gk by auto. reflexivity.
Qed.
End Draws.

(** A layer with two input channels and weights in proportion 1 : e. *)
Definition sc2 : sconv := mkSC 2 1 1 (mkT [1; 2; 1; 1]%nat (fun idx => match idx with [_; c; _; _] => Fin (INR c) | _ => NaN end)).
Definition p2 : tensor num := mkT [1; 1; 1; 1]%nat (fun _ => Fin 1).
Lemma sc2_fits : parents_fit sc2 1 1 1 p2 (fun _ _ => 0%nat).
Proof.
  constructor; cbn [sc2 sc_in sc_out sc_k sc_logits shape]; try lia; try (exists 1%nat; reflexivity); auto.
  - intros idx Hi. cbn [shape] in Hi. destruct idx as [|a [|b [|c [|d [|e l]]]]]; cbn in Hi; try tauto.
  - split; [reflexivity|]. split; [auto|]. intros n s h w Hn Hs Hh Hw. replace s with 0%nat by lia. reflexivity.
Qed.
Lemma sc2_weights : patch_weight sc2 0 0 0 0 < patch_weight sc2 0 1 0 0.
Proof.
  unfold patch_weight. cbn [sc2 sc_in]. rewrite !rsum_S, rsum_0. unfold patch_logit. cbn. rewrite exp_0.
  pose proof (exp_pos 1). apply Rmult_lt_compat_r; [apply Rinv_0_lt_compat; lra|]. pose proof (exp_ineq1 1). lra.
Qed.
(** mpe without evidence need not select a channel of greatest weight. *)
Theorem C91_mpe_refuted : ~ forall V s N H W p i T o j, parents_fit s N H W p i -> (0 < sc_in s)%nat -> 0 < T ->
  @sconv_sample V s T true None p = Ret o -> hotat o N (sc_in s) H W j ->
  forall n h w c, (n < N)%nat -> (h < H)%nat -> (w < W)%nat -> (c < sc_in s)%nat ->
    patch_weight s (i n (h * W + w)%nat) c h w <= patch_weight s (i n (h * W + w)%nat) (j n (h * W + w)%nat) h w.
Proof.
  intros F. destruct (@C91_first_channel unit sc2 1 1 p2 (fun _ _ => 0%nat) 1 sc2_fits) as (o & E & Ho); [cbn; lia|lra|].
  pose proof (F unit sc2 1%nat 1%nat 1%nat p2 (fun _ _ => 0%nat) 1 o (fun _ _ => 0%nat) sc2_fits ltac:(cbn; lia) ltac:(lra) E Ho
    0%nat 0%nat 0%nat 1%nat ltac:(lia) ltac:(lia) ltac:(lia) ltac:(cbn; lia)) as Q. pose proof sc2_weights. cbn beta in Q. lra.
Qed.
(** Draws without evidence and at temperature one need not follow the weights of the forward pass. *)
Theorem C91_law_refuted : ~ forall (V : Type) (EL : list nat -> (V -> R) -> R), leaf_expectation EL -> forall s N H W p i g, parents_fit s N H W p i -> (0 < sc_in s)%nat ->
  expect EL (sconv_sample s 1 false None p) (fun o => cprod N (sc_in s) H W o g) =
  rprod N (fun n => rprod (H * W) (fun d => rsum (sc_in s) (fun c => patch_weight s (i n d) c (d / W) (d mod W) * g n d c 0%nat))).
Proof.
  intros F. set (EL := EL_discrete 1 (fun _ _ => 1)). assert (HEL: leaf_expectation EL) by (apply EL_discrete_ok; intros; rewrite rsum_S, rsum_0; ring).
  set (g := fun n d c r : nat => INR c).
  pose proof (F nat EL HEL sc2 1%nat 1%nat 1%nat p2 (fun _ _ => 0%nat) g sc2_fits ltac:(cbn; lia)) as Q.
  rewrite (C91_uniform EL HEL sc2 1 1 p2 (fun _ _ => 0%nat) 1 g sc2_fits ltac:(cbn; lia) ltac:(lra)) in Q.
  change (1 * 1)%nat with 1%nat in Q. unfold g in Q. cbn [sc2 sc_in] in Q. rewrite !rprod_S, !rprod_0 in Q. rewrite !rsum_S, !rsum_0 in Q.
  change (0 / 1)%nat with 0%nat in Q. change (0 mod 1)%nat with 0%nat in Q. fold sc2 in Q.
  destruct (patch_weight_sum sc2 0 0 0 ltac:(cbn; lia)) as [_ S]. cbn [sc2 sc_in] in S. rewrite !rsum_S, rsum_0 in S. fold sc2 in S.
  pose proof sc2_weights. cbn [INR] in Q. lra.
Qed.

(** * The hypotheses hold for a layer of kernel 2 on an image of 4 x 2 pixels. *)
Definition scx : sconv := mkSC 2 3 2 (mkT [3; 2; 2; 2]%nat (fun idx => match idx with [o; c; a; b] => Fin (INR (o + 2 * c + a * b)) | _ => NaN end)).
Definition xx : tensor num := mkT [5; 2; 4; 2]%nat (fun idx => match idx with [n; c; h; w] => Fin (INR n - INR (c + h * w)) | _ => NaN end).
Definition px : tensor num := mkT [5; 3; 4; 2]%nat (fun idx => match idx with [n; o; h; w] => hot o ((n + h + w) mod 3) | _ => NaN end).
Lemma fin4 g a b c d : (forall i j k l, isfin (g [i; j; k; l]) = true) -> finite (mkT [a; b; c; d] g).
Proof. intros G idx Hi. cbn [shape] in Hi. destruct idx as [|i [|j [|k [|l [|e r]]]]]; cbn in Hi; try tauto. apply G. Qed.
Example C91_ex : sconv_fits scx 5 4 2 xx /\ (0 < sc_in scx)%nat /\ finite (sc_logits scx) /\ finite xx /\
  parents_fit scx 5 4 2 px (fun n d => (n + d / 2 + d mod 2) mod 3)%nat.
Proof.
  assert (Fl: finite (sc_logits scx)) by (apply fin4; reflexivity).
  split; [constructor; cbn; try lia; auto; [exists 2%nat|exists 1%nat]; reflexivity|]. split; [cbn; lia|]. split; [exact Fl|].
  split; [apply fin4; reflexivity|]. constructor; cbn [scx sc_k sc_in sc_out sc_logits]; try lia; auto; [exists 2%nat; reflexivity|exists 1%nat; reflexivity|].
  split; [reflexivity|]. split; [intros; apply Nat.mod_upper_bound; lia|]. intros n s h w Hn Hs Hh Hw. rewrite flat_div, flat_mod by auto. reflexivity.
Qed.
Example C91_ex_evidence : cache_ok (Some xx) 5 (sc_in scx) 4 2 (fun n d c _ => exp (INR n - INR (c + d / 2 * (d mod 2)))).
Proof.
  cbn [cache_ok]. split; [reflexivity|]. intros n c h w Hn Hc Hh Hw. split; [apply exp_pos|]. rewrite ln_exp, flat_div, flat_mod by auto. reflexivity.
Qed.
(** Two positions of different patches have the same weights, two of one patch need not. *)
Example C91_ex_weights : patch_weight scx 1 0 0 1 = patch_weight scx 1 0 2 1 /\
  patch_logit scx 1 0 0 1 <> patch_logit scx 1 0 1 1.
Proof. split; [reflexivity|]. change (INR 1 <> INR 2). intros E. apply INR_eq in E. lia. Qed.
Example C91_ex_rejects : sconv_forward scx (mkT [1; 2; 3; 2]%nat (fun _ => Fin 0)) = Err AssertionError.
Proof. apply (C91_rejects _ 1 2 3 2); [cbn; lia|reflexivity|]. cbn [scx sc_k]. intros [(q & Hq) _]. lia. Qed.

Print Assumptions C91_forward.
Print Assumptions C91_between.
Print Assumptions C91_tiled.
Print Assumptions C91_rejects.
Print Assumptions C91_weights.
Print Assumptions C91_draws.
Print Assumptions C91_uniform.
Print Assumptions C91_first_channel.
Print Assumptions C91_mpe_refuted.
Print Assumptions C91_law_refuted.
