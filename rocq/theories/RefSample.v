(** Index sampling of the layers: shapes, ranges and laws. *)
From Coq Require Import List Arith Lia Bool Reals Lra.
Import ListNotations.
From Verif Require Import Base RSum Num Tensor Prob Layers Circuit RefFwd.
Local Open Scope R_scope.
Local Arguments Nat.div : simpl never.
Local Arguments Nat.modulo : simpl never.
Local Arguments Nat.sub : simpl never.
Local Arguments Nat.mul : simpl never.
Local Arguments Nat.add : simpl never.
Local Arguments Nat.min : simpl never.
Local Arguments clamp : simpl never.
Local Arguments bdim : simpl never.

Lemma expand_ok {A} s (t : tensor A) : expandable (shape t) s = true ->
  expand s t = Ok (mkT s (fun idx => get t (bproj (shape t) idx))).
Proof. intros H. unfold expand. rewrite H. reflexivity. Qed.
Lemma gather_ok {A} d index (t : tensor A) : gather_fits d (shape t) (shape index) = true ->
  (forall idx, inb (shape index) idx -> (get index idx < size t d)%nat) ->
  gather d index t = Ok (mkT (shape index) (fun idx => get t (set_nth d (get index idx) idx))).
Proof.
  intros H H2. unfold gather. rewrite H. simpl.
  assert (E: forallb (fun idx => (get index idx <? size t d)%nat) (all_idx (shape index)) = true).
  { apply forallb_forall. intros idx Hin. apply in_all_idx in Hin. apply Nat.ltb_lt. auto. }
  rewrite E. reflexivity.
Qed.
Ltac expands := cbn [unsqueeze insert_nth expandable shape]; rewrite ?Nat.eqb_refl, ?orb_true_r; reflexivity.
Ltac fits := cbn [unsqueeze insert_nth gather_fits shape combine forallb fst snd length]; rewrite ?Nat.leb_refl, ?Nat.eqb_refl; reflexivity.
Lemma inb_cons d s idx : inb (d :: s) idx -> exists i idx', idx = i :: idx' /\ (i < d)%nat /\ inb s idx'.
Proof. destruct idx as [|i idx]; simpl; [tauto|]. intros [H1 H2]. exists i, idx. auto. Qed.
Lemma inb_nil idx : inb [] idx -> idx = [].
Proof. destruct idx; simpl; tauto. Qed.
Ltac inbs := repeat match goal with
  | H : inb (_ :: _) _ |- _ => apply inb_cons in H as (? & ? & -> & ? & H)
  | H : inb [] _ |- _ => apply inb_nil in H; subst end.

Lemma bproj_same s idx : length idx = length s -> bproj s idx = bidx s idx.
Proof. intros H. unfold bproj. rewrite H, Nat.sub_diag. reflexivity. Qed.
Ltac gets := repeat (cbn [get shape unsqueeze remove_nth insert_nth set_nth bidx nth unsq_end dim length size];
                     rewrite ?bproj_same by reflexivity);
             cbn [get shape unsqueeze remove_nth insert_nth set_nth bidx nth unsq_end dim length size]; clamps.

(** * Selecting logits by parent and repetition indices *)
Lemma squeeze_1 {A} d s (g : list nat -> A) : nth d s 0%nat = 1%nat ->
  squeeze d (mkT s g) = mkT (remove_nth d s) (fun idx => g (insert_nth d 0%nat idx)).
Proof. intros H. unfold squeeze, size. cbn [shape]. rewrite H. reflexivity. Qed.

Lemma select_disor_ok lg N D S O Rn p rep : shape lg = [D; S; O; Rn] ->
  shape p = [N; D] -> (forall n d, (n < N)%nat -> (d < D)%nat -> (get p [n; d] < O)%nat) ->
  shape rep = [N] -> (forall n, (n < N)%nat -> (get rep [n] < Rn)%nat) ->
  exists g, select_disor lg N D S Rn p rep = Ok g /\ shape g = [N; D; S] /\
    forall n d k, (n < N)%nat -> (d < D)%nat -> (k < S)%nat ->
      get g [n; d; k] = get lg [d; k; get p [n; d]; get rep [n]].
Proof.
  destruct lg as [sl gl], p as [sp gp], rep as [sr gr]. cbn [shape get]. intros -> -> Hp -> Hr.
  unfold select_disor.
  rewrite expand_ok by expands. cbn [bind].
  cbn [unsq_end unsqueeze shape insert_nth dim length size nth].
  rewrite expand_ok by expands. cbn [bind].
  rewrite gather_ok.
  2: fits.
  2:{ intros idx Hin. cbn [shape] in Hin. inbs. gets. apply Hp; auto. }
  cbn [bind shape].
  rewrite squeeze_1 by reflexivity. cbn [remove_nth].
  rewrite expand_ok by expands. cbn [bind].
  rewrite gather_ok.
  2: fits.
  2:{ intros idx Hin. cbn [shape] in Hin. inbs. gets. apply Hr; auto. }
  cbn [bind shape]. rewrite squeeze_1 by reflexivity. cbn [remove_nth shape]. rewrite eqb_list_refl. cbn [assert bind].
  eexists. split; [reflexivity|]. split; [reflexivity|].
  intros n d k Hn Hd Hk. pose proof (Hr n Hn). pose proof (Hp n d Hn Hd). gets. reflexivity.
Qed.

(** * Generic facts *)
From Coq Require Import FunctionalExtensionality.
Lemma mbind_assoc {V A B C} (m : M V A) (f : A -> M V B) (g : B -> M V C) :
  mbind (mbind m f) g = mbind m (fun a => mbind (f a) g).
Proof.
  induction m as [a|e|w k IH|key k IH]; simpl; auto.
  - f_equal. apply functional_extensionality. auto.
  - f_equal. apply functional_extensionality. auto.
Qed.

Lemma view_same {A} s (t : tensor A) : shape t = s ->
  exists t', view s t = Ok t' /\ shape t' = s /\ forall idx, inb s idx -> get t' idx = get t idx.
Proof.
  intros E. unfold view. rewrite E, Nat.eqb_refl. eexists. split; [reflexivity|]. split; [reflexivity|].
  intros idx H. cbn [get]. rewrite unravel_ravel; auto.
Qed.
Lemma view_infer_rows {A} N X (t : tensor A) : (0 < N)%nat -> shape t = [N; X] ->
  exists t', view_infer [N] [] t = Ok t' /\ shape t' = [N; X] /\
    forall n x, (n < N)%nat -> (x < X)%nat -> get t' [n; x] = get t [n; x].
Proof.
  intros HN E. unfold view_infer. cbn [numel]. destruct (Nat.eqb_spec (N * 1 * 1) 0) as [Z|_]; [lia|].
  rewrite E. cbn [numel app].
  replace (N * (X * 1) / (N * 1 * 1))%nat with X by (apply Nat.div_unique with (r := 0%nat); [lia|ring]).
  destruct (view_same [N; X] t E) as (t' & H1 & H2 & H3). exists t'. split; [auto|]. split; auto.
  intros. apply H3. simpl; auto.
Qed.
Lemma view_infer_pairs {A} N D (t : tensor A) : (0 < N)%nat -> shape t = [N; D; 2]%nat ->
  exists t', view_infer [N] [] t = Ok t' /\ shape t' = [N; D * 2]%nat /\
    forall n x, (n < N)%nat -> (x < D * 2)%nat -> get t' [n; x] = get t [n; x / 2; x mod 2]%nat.
Proof.
  intros HN E. unfold view_infer. cbn [numel]. destruct (Nat.eqb_spec (N * 1 * 1) 0) as [Z|_]; [lia|].
  rewrite E. cbn [numel app].
  replace (N * (D * (2 * 1)) / (N * 1 * 1))%nat with (D * 2)%nat by (apply Nat.div_unique with (r := 0%nat); [lia|ring]).
  unfold view. rewrite E. cbn [numel].
  destruct (Nat.eqb_spec (N * (D * 2 * 1)) (N * (D * (2 * 1)))) as [_|Z]; [|lia].
  eexists. split; [reflexivity|]. split; [reflexivity|]. intros n x Hn Hx. cbn [get].
  assert (x / 2 < D)%nat by (apply Nat.div_lt_upper_bound; lia).
  assert (x mod 2 < 2)%nat by (apply Nat.mod_upper_bound; lia).
  replace (ravel [N; (D * 2)%nat] [n; x]) with (ravel [N; D; 2%nat] [n; (x / 2)%nat; (x mod 2)%nat]).
  - rewrite unravel_ravel by (simpl; auto). reflexivity.
  - cbn [ravel numel]. pose proof (Nat.div_mod x 2). lia.
Qed.

Lemma wsoft_ext K T f g k : (k < K)%nat -> (forall i, (i < K)%nat -> f i = g i) -> wsoft K T f k = wsoft K T g k.
Proof.
  intros Hk H. unfold wsoft, rsoftmax. rewrite H by auto. f_equal. apply rsum_ext. intros i Hi. rewrite H; auto.
Qed.

(** Log weights of a gathered logit tensor. *)
Lemma lw_rows g N D K T (f : nat -> nat -> nat -> num) : T <> 0 -> shape g = [N; D; K] ->
  (forall n d k, (n < N)%nat -> (d < D)%nat -> (k < K)%nat -> get g [n; d; k] = f n d k /\ isfin (f n d k) = true) ->
  forall n d k, (n < N)%nat -> (d < D)%nat -> (k < K)%nat ->
    get (logits_to_log_weights g 2 T) [n; d; k] = Fin (ln (wsoft K T (f n d) k)).
Proof.
  intros HT Hs H n d k Hn Hd Hk.
  assert (E: size g 2 = K) by (unfold size; rewrite Hs; reflexivity).
  rewrite (ltlw_get g 2 T [n; d; k] (fun k => toR (f n d k))).
  - rewrite E. cbn [nth]. reflexivity.
  - exact HT.
  - simpl; lia.
  - rewrite E. exact Hk.
  - rewrite E. cbn [set_nth]. intros k' Hk'. destruct (H n d k') as [-> F]; auto. apply isfin_Fin; auto.
Qed.

(** Rows of logs of positive numbers. *)
Definition lrows (t : tensor num) (N D K : nat) (w : nat -> nat -> nat -> R) : Prop :=
  shape t = [N; D; K] /\ forall n d k, (n < N)%nat -> (d < D)%nat -> (k < K)%nat ->
    0 < w n d k /\ get t [n; d; k] = Fin (ln (w n d k)).
Lemma lrows_ext t N D K w w' : lrows t N D K w ->
  (forall n d k, (n < N)%nat -> (d < D)%nat -> (k < K)%nat -> w n d k = w' n d k) -> lrows t N D K w'.
Proof. intros [Hs H] E. split; auto. intros. rewrite <- E by auto. auto. Qed.

Lemma renormalize_rows lw lls N D K w p : (0 < K)%nat -> lrows lw N D K w -> lrows lls N D K p ->
  exists t, renormalize lw lls = Ok t /\
    lrows t N D K (fun n d k => w n d k * p n d k / rsum K (fun k => w n d k * p n d k)).
Proof.
  intros HK [Sw Hw] [Sp Hp]. unfold renormalize, badd.
  destruct (bop_same nadd lw lls) as (s & Es & Ss & Gs); [congruence|]. rewrite Es. cbn [bind].
  rewrite Sw in Ss, Gs. destruct s as [ss gs]. cbn [shape] in Ss. subst ss.
  unfold tlogsumexp_keep, reduce_keep, size. cbn [shape set_nth nth].
  bcast. eexists. split; [reflexivity|]. split; [reflexivity|].
  intros n d k Hn Hd Hk.
  assert (P: forall k, (k < K)%nat -> 0 < w n d k * p n d k).
  { intros k' Hk'. apply Rmult_lt_0_compat; [apply Hw|apply Hp]; auto. }
  assert (PS: 0 < rsum K (fun k => w n d k * p n d k)) by (apply rsum_pos; auto).
  split; [apply Rdiv_lt_0_compat; auto|].
  assert (G: forall k, (k < K)%nat -> gs [n; d; k] = Fin (ln (w n d k * p n d k))).
  { intros k' Hk'. change (gs [n; d; k']) with (get (mkT [N; D; K] gs) [n; d; k']). rewrite Gs by (simpl; auto).
    destruct (Hw n d k') as [W1 ->]; auto. destruct (Hp n d k') as [P1 ->]; auto. simpl. rewrite ln_mul; auto. }
  gets. rewrite (nlogsumexp_ln K _ (fun k => w n d k * p n d k)); auto.
  rewrite G by auto. unfold nsub. simpl. f_equal.
  unfold Rdiv. rewrite <- (ln_mul (w n d k * p n d k)); auto; [rewrite ln_Rinv; auto|apply Rinv_0_lt_compat; auto].
Qed.

Lemma rep_gather_rows x N D S Rn v rep : trep x N D S Rn v -> shape rep = [N] ->
  (forall n, (n < N)%nat -> (get rep [n] < Rn)%nat) ->
  exists t, rep_gather x D S rep = Ok t /\ lrows t N D S (fun n d s => v n d s (get rep [n])).
Proof.
  intros [Hx Gx] Hr Gr. destruct x as [sx gx], rep as [sr gr]. cbn [shape get] in *. subst sx sr.
  unfold rep_gather. cbn [unsq_end unsqueeze shape insert_nth dim length size nth].
  rewrite expand_ok by expands. cbn [bind].
  rewrite gather_ok.
  2: fits.
  2:{ intros idx Hin. cbn [shape] in Hin. inbs. gets. apply Gr; auto. }
  cbn [bind shape]. rewrite squeeze_1 by reflexivity. cbn [remove_nth].
  eexists. split; [reflexivity|]. split; [reflexivity|].
  intros n d s Hn Hd Hs. pose proof (Gr n Hn). gets. apply Gx; auto.
Qed.

(** * Contexts and samplers *)
Definition cgood (c : sctx) (N D S Rn : nat) : Prop :=
  c_n c = N /\ shape (c_out c) = [N; D] /\
  (forall n d, (n < N)%nat -> (d < D)%nat -> (get (c_out c) [n; d] < S)%nat) /\
  shape (c_rep c) = [N] /\ (forall n, (n < N)%nat -> (get (c_rep c) [n] < Rn)%nat).

Lemma check_context_ok c N D S Rn : cgood c N D S Rn -> check_context D c = Ok tt.
Proof.
  intros (Hn & Ho & _ & Hr & _). unfold check_context, size, dim. rewrite Hn, Ho, Hr. cbn [nth length].
  rewrite !Nat.eqb_refl. reflexivity.
Qed.

(** [sampler f N Rn U v T]: on every good context, [f] computes the posterior weights of the layer
    [U] given the values [v], chooses one product per node and hands each child the channel
    that the chosen product uses. *)
Definition sampler {V} (f : sctx -> M V sctx) (N Rn : nat) (U : ulayer) (v : nat -> vals) (T : R) : Prop :=
  forall c, cgood c N (uDout U) (uSout U) Rn -> c_tsum c = T ->
  exists lw g, f c = mbind (choose c lw) g /\
    lrows lw N (uDout U) (uK U) (fun n d k => upost U (v n) d (get (c_out c) [n; d]) (get (c_rep c) [n]) k) /\
    forall kt, shape kt = [N; uDout U] ->
      (forall n d, (n < N)%nat -> (d < uDout U)%nat -> (get kt [n; d] < uK U)%nat) ->
      exists i, g kt = Ret (set_out c i) /\ shape i = [N; uDin U] /\
        forall n d', (n < N)%nat -> (d' < uDin U)%nat ->
          get i [n; d'] = usel U (upar U d') (get (c_out c) [n; upar U d']) (get kt [n; upar U d']) d'.

Definition vone : nat -> vals := fun _ _ _ _ => 1.
Lemma upost_one Rn U d o r k : uwf Rn U -> (d < uDout U)%nat -> (o < uSout U)%nat -> (r < Rn)%nat ->
  upost U (vone 0%nat) d o r k = uW U d o r k.
Proof.
  intros Hw Hd Ho Hr. unfold upost. rewrite (ueval_one Rn U); auto; [|intros ? ? ? ? ? ?; reflexivity].
  unfold uprod, vone. rewrite lprod_one. field.
Qed.
Lemma upost_pos Rn U v d o r k : uwf Rn U -> vpos (uDin U) (uSin U) Rn v ->
  (d < uDout U)%nat -> (o < uSout U)%nat -> (r < Rn)%nat -> (k < uK U)%nat -> 0 < upost U v d o r k.
Proof.
  intros. unfold upost. apply Rdiv_lt_0_compat.
  - apply Rmult_lt_0_compat; [eapply uw_pos; eauto|eapply uprod_pos; eauto].
  - eapply ueval_pos; eauto.
Qed.

(** The prior weights of a layer, selected at parents and repetitions. *)
Definition wrows (lw : tensor num) (N : nat) (U : ulayer) (c : sctx) : Prop :=
  lrows lw N (uDout U) (uK U) (fun n d k => uW U d (get (c_out c) [n; d]) (get (c_rep c) [n]) k).

Lemma wrows_one Rn U N c lw : uwf Rn U -> cgood c N (uDout U) (uSout U) Rn -> wrows lw N U c ->
  lrows lw N (uDout U) (uK U) (fun n d k => upost U (vone n) d (get (c_out c) [n; d]) (get (c_rep c) [n]) k).
Proof.
  intros Hw (_ & _ & Ho & _ & Hr) H. eapply lrows_ext; [exact H|]. intros n d k Hn Hd Hk. symmetry.
  apply (upost_one Rn); auto.
Qed.
Lemma wrows_post Rn U N c lw lls v : uwf Rn U -> (0 < uK U)%nat -> cgood c N (uDout U) (uSout U) Rn -> wrows lw N U c ->
  lrows lls N (uDout U) (uK U) (fun n d k => uprod U (v n) d (get (c_out c) [n; d]) (get (c_rep c) [n]) k) ->
  exists t, renormalize lw lls = Ok t /\
  lrows t N (uDout U) (uK U) (fun n d k => upost U (v n) d (get (c_out c) [n; d]) (get (c_rep c) [n]) k).
Proof. intros Hw HK Hc H1 H2. destruct (renormalize_rows _ _ _ _ _ _ _ HK H1 H2) as (t & Et & Ht). exists t. auto. Qed.

(** ** linsum *)
Lemma disor_wrows lg c N D S O Rn U T : T <> 0 -> (0 < S)%nat -> lfin lg [D; S; O; Rn] -> uDout U = D -> uK U = S -> uSout U = O ->
  (forall d o r k, uW U d o r k = wsoft S T (fun k => get lg [d; k; o; r]) k) ->
  cgood c N D O Rn -> exists g, select_disor lg N D S Rn (c_out c) (c_rep c) = Ok g /\
    wrows (logits_to_log_weights g 2 T) N U c.
Proof.
  intros HT HS Hl ED EK EO EW (Hn & So & Go & Sr & Gr). pose proof Hl as [Hs _].
  destruct (select_disor_ok lg N D S O Rn (c_out c) (c_rep c)) as (g & Eg & Sg & Gg); auto.
  exists g. split; auto. unfold wrows. rewrite ED, EK. split.
  - rewrite ltlw_shape. auto.
  - intros n d k Hn' Hd Hk. rewrite EW. split; [apply wsoft_pos; auto|].
    apply (lw_rows g N D S T (fun n d k => get lg [d; k; get (c_out c) [n; d]; get (c_rep c) [n]])); auto.
    intros n' d' k' Hn'' Hd' Hk'. split; [apply Gg; auto|]. apply Hl. simpl. auto 10.
Qed.

Lemma sample_with_eq {V} fout sel cond draw ca c lw0 lw : check_context fout c = Ok tt -> sel c = Ok lw0 ->
  (match ca with None => Ok lw0 | Some x => cond c x lw0 end) = Ok lw ->
  @sample_with V fout sel cond draw ca c = mbind (draw c lw) (fun i => Ret (set_out c i)).
Proof. intros H1 H2 H3. unfold sample_with. rewrite H1. cbn [lift mbind]. rewrite H2. cbn [lift mbind]. rewrite H3. reflexivity. Qed.

(** The cache of a layer, if any, holds the values [v]. *)
Definition linsum_cached (L : slay) (N : nat) (ca : option cache) (v : nat -> vals) : Prop :=
  (ca = None /\ v = vone) \/
  exists cl cr, ca = Some (CLR cl cr) /\
    trep cl N (linsum_features_out L) (sin L) (nrep L) (fun n => lval2 (v n)) /\
    trep cr N (linsum_features_out L) (sin L) (nrep L) (fun n => rval2 (nf L) (v n)).

Lemma linsum_route {V} L c N K kt : (0 < N)%nat -> c_n c = N -> (2 <= nf L)%nat ->
  shape kt = [N; linsum_features_out L] ->
  (forall n d, (n < N)%nat -> (d < linsum_features_out L)%nat -> (get kt [n; d] < K)%nat) ->
  exists i, (i <~ lift (view_infer [c_n c] [] (repeat_interleave 1 2 kt)) ;;
     Ret (if 0 <? linsum_pad L then take 1 (size i 1 - linsum_pad L) i else i)%nat) = @Ret V _ i /\
  shape i = [N; nf L] /\
  forall n d', (n < N)%nat -> (d' < nf L)%nat -> get i [n; d'] = get kt [n; d' / 2]%nat.
Proof.
  intros HN Hc H2 Sk Hk. rewrite Hc.
  pose proof (Nat.div_mod (nf L) 2 ltac:(lia)) as E1. pose proof (Nat.mod_upper_bound (nf L) 2 ltac:(lia)) as E2.
  assert (EF: (linsum_features_out L * 2 = nf L + linsum_pad L)%nat).
  { unfold linsum_features_out, linsum_pad. rewrite div2_half.
    pose proof (Nat.div_mod (nf L + 1) 2 ltac:(lia)). pose proof (Nat.mod_upper_bound (nf L + 1) 2 ltac:(lia)). lia. }
  destruct (view_infer_rows N (linsum_features_out L * 2) (repeat_interleave 1 2 kt)) as (t & Et & St & Gt); auto.
  { unfold repeat_interleave, size. cbn [shape]. rewrite Sk. reflexivity. }
  rewrite Et. cbn [lift mbind]. eexists. split; [reflexivity|].
  assert (G: forall n d', (n < N)%nat -> (d' < nf L)%nat -> get t [n; d'] = get kt [n; d' / 2]%nat).
  { intros n d' Hn Hd. rewrite Gt by (auto; lia). reflexivity. }
  destruct (Nat.ltb_spec 0 (linsum_pad L)) as [Hp|Hp].
  - split.
    + unfold take, size. cbn [shape]. rewrite St. cbn [nth set_nth]. f_equal. f_equal. lia.
    + exact G.
  - split; [|exact G]. rewrite St. f_equal. f_equal. lia.
Qed.

Theorem linsum_sampler {V} L N ca v T : linsum_ok L -> (0 < N)%nat -> T <> 0 ->
  linsum_cached L N ca v -> @sampler V (linsum_sample L ca) N (nrep L) (linsum_u L T) v T.
Proof.
  intros (HS & HF & Hl) HN HT Hca c Hc Ec. pose proof Hc as (Hn & So & Go & Sr & Gr).
  pose proof (linsum_u_wf (nrep L) L T HS) as Hw. cbn [linsum_u uDout uSout uK uDin] in *.
  destruct (disor_wrows (logits L) c N (linsum_features_out L) (sin L) (sout L) (nrep L) (linsum_u L T) T) as (g & Eg & Wg); auto.
  assert (Esel: linsum_select L c = Ok (logits_to_log_weights g 2 T)).
  { unfold linsum_select. rewrite Hn, Eg, Ec. reflexivity. }
  assert (Q: exists lw, match ca with None => Ok (logits_to_log_weights g 2 T)
       | Some x => linsum_condition L c x (logits_to_log_weights g 2 T) end = Ok lw /\
     lrows lw N (linsum_features_out L) (sin L) (fun n d k => upost (linsum_u L T) (v n) d (get (c_out c) [n; d]) (get (c_rep c) [n]) k)).
  { destruct Hca as [[-> ->]|(cl & cr & -> & Hcl & Hcr)].
    - eexists. split; [reflexivity|]. apply (wrows_one _ _ _ _ _ Hw Hc Wg).
    - unfold linsum_condition.
      destruct (rep_gather_rows cl N _ _ _ _ (c_rep c) Hcl Sr Gr) as (ll & El & Rl). rewrite El. cbn [bind].
      destruct (rep_gather_rows cr N _ _ _ _ (c_rep c) Hcr Sr Gr) as (lr & Er & Rr). rewrite Er. cbn [bind].
      destruct Rl as [Sl Gl]. destruct Rr as [Sr' Gr'].
      destruct (bop_same nadd ll lr) as (s & Es & Ss & Gs); [congruence|]. unfold badd. rewrite Es. cbn [bind].
      rewrite Sl in Ss, Gs. rewrite Hn. destruct (view_same _ s Ss) as (s' & Es' & Ss' & Gs'). rewrite Es'. cbn [bind].
      apply (wrows_post _ (linsum_u L T) N c _ _ v Hw HS Hc Wg). split; [exact Ss'|].
      intros n d k Hn' Hd Hk. rewrite Gs' by (simpl; auto). rewrite Gs by (simpl; auto).
      destruct (Gl n d k) as [P1 ->]; auto. destruct (Gr' n d k) as [P2 ->]; auto.
      unfold uprod. cbn [linsum_u ukids usel]. rewrite <- pairprod_val. split; [apply Rmult_lt_0_compat; auto|].
      simpl. rewrite ln_mul; auto. }
  destruct Q as (lw & Elw & Hlw).
  unfold linsum_sample. rewrite (sample_with_eq _ _ _ _ _ _ _ lw (check_context_ok _ _ _ _ _ Hc) Esel Elw).
  unfold linsum_indices. rewrite mbind_assoc.
  exists lw. eexists. split; [reflexivity|]. split; [exact Hlw|].
  intros kt Sk Gk. destruct (@linsum_route V L c N _ kt HN Hn HF Sk Gk) as (i & Ei & Si & Gi).
  cbv zeta. rewrite Ei. exists i. split; [reflexivity|]. split; [exact Si|].
  intros n d' Hn' Hd'. rewrite Gi by auto. reflexivity.
Qed.

(** ** sum *)
Definition sum_cached (L : slay) (N : nat) (ca : option cache) (v : nat -> vals) : Prop :=
  (ca = None /\ v = vone) \/
  exists x, ca = Some (CIn x) /\ trep x N (nf L) (sin L) (nrep L) v.

Lemma sum_core_lw L c N ca v T g : (0 < sin L)%nat -> cgood c N (nf L) (sout L) (nrep L) ->
  sum_cached L N ca v -> wrows (logits_to_log_weights g 2 T) N (sum_u L T) c ->
  exists lw, match ca with None => Ok (logits_to_log_weights g 2 T)
       | Some x => sum_condition L c x (logits_to_log_weights g 2 T) end = Ok lw /\
     lrows lw N (nf L) (sin L) (fun n d k => upost (sum_u L T) (v n) d (get (c_out c) [n; d]) (get (c_rep c) [n]) k).
Proof.
  intros HS Hc Hca Wg. pose proof Hc as (Hn & So & Go & Sr & Gr). pose proof (sum_u_wf (nrep L) L T HS) as Hw.
  destruct Hca as [[-> ->]|(x & -> & Hx)].
  - eexists. split; [reflexivity|]. apply (wrows_one _ _ _ _ _ Hw Hc Wg).
  - unfold sum_condition. destruct (rep_gather_rows x N _ _ _ _ (c_rep c) Hx Sr Gr) as (ll & El & Rl). rewrite El. cbn [bind].
    destruct (wrows_post _ (sum_u L T) N c _ ll v Hw HS Hc Wg) as (t & Et & Ht); [|exists t; auto].
    eapply lrows_ext; [exact Rl|]. intros n d k Hn' Hd Hk. unfold uprod. simpl. ring.
Qed.

Theorem sum_sampler {V} L N ca v T : sum_ok L -> T <> 0 ->
  sum_cached L N ca v -> @sampler V (sum_sample L ca) N (nrep L) (sum_u L T) v T.
Proof.
  intros (HS & Hl) HT Hca c Hc Ec. pose proof Hc as (Hn & So & Go & Sr & Gr).
  cbn [sum_u uDout uSout uK uDin] in *.
  destruct (disor_wrows (logits L) c N (nf L) (sin L) (sout L) (nrep L) (sum_u L T) T) as (g & Eg & Wg); auto.
  assert (Esel: sum_select L c = Ok (logits_to_log_weights g 2 T)).
  { unfold sum_select. rewrite Hn, Eg, Ec. reflexivity. }
  destruct (sum_core_lw L c N ca v T g HS Hc Hca Wg) as (lw & Elw & Hlw).
  unfold sum_sample. rewrite (sample_with_eq _ _ _ _ _ _ _ lw (check_context_ok _ _ _ _ _ Hc) Esel Elw).
  exists lw. eexists. split; [reflexivity|]. split; [exact Hlw|].
  intros kt Sk Gk. exists kt. split; [reflexivity|]. split; [exact Sk|]. intros; reflexivity.
Qed.

(** ** linsum2 with an even number of features: a product layer above a sum layer *)
(** Handing the index of a product to its two factors. *)
Definition pair_ctx (c : sctx) : sctx := set_out c (repeat_interleave 1 2 (c_out c)).
Definition linsum2_core {V} (L : slay) (ca : option cache) (c : sctx) : M V sctx :=
  lw <~ lift (sum_select L c) ;;
  lw <~ lift (match ca with None => Ok lw | Some x => sum_condition L c x lw end) ;;
  i <~ linsum2_indices L c lw ;;
  Ret (set_out c i).

Lemma even_out L : nf L mod 2 = 0%nat -> (linsum_features_out L * 2 = nf L)%nat.
Proof.
  intros He. unfold linsum_features_out, linsum_pad. rewrite He, Nat.add_0_r.
  pose proof (Nat.div_mod (nf L) 2 ltac:(lia)). lia.
Qed.
Lemma pair_ctx_good L c N Rn : nf L mod 2 = 0%nat -> cgood c N (linsum_features_out L) (sout L) Rn ->
  cgood (pair_ctx c) N (nf L) (sout L) Rn.
Proof.
  intros He (Hn & So & Go & Sr & Gr). pose proof (even_out L He) as E.
  unfold cgood, pair_ctx, set_out. cbn [c_n c_out c_rep]. split; auto. split; [|split; [|split; auto]].
  - unfold repeat_interleave, size. cbn [shape]. rewrite So. cbn [nth set_nth]. rewrite E. reflexivity.
  - intros n d Hn' Hd. unfold repeat_interleave. cbn [get nth set_nth]. apply Go; auto.
    apply Nat.div_lt_upper_bound; lia.
Qed.
Lemma linsum2_sample_eq {V} L ca c N Rn : nf L mod 2 = 0%nat -> cgood c N (linsum_features_out L) (sout L) Rn ->
  @linsum2_sample V L ca c = linsum2_core L ca (pair_ctx c).
Proof.
  intros He Hc. unfold linsum2_sample, sample_with. rewrite (check_context_ok _ _ _ _ _ Hc). cbn [lift mbind].
  unfold linsum2_core, linsum2_select, sum_select, pair_ctx, set_out. cbn [c_n c_out c_rep c_tsum].
  unfold linsum_pad. rewrite He. cbn [Nat.ltb Nat.leb].
  destruct (select_disor _ _ _ _ _ _ _) as [g|e]; [|reflexivity]. cbn [bind lift mbind].
  destruct ca as [[|x]|]; reflexivity.
Qed.

Theorem linsum2_sampler {V} L N ca v T : linsum2_ok L -> nf L mod 2 = 0%nat -> (0 < N)%nat -> T <> 0 ->
  sum_cached L N ca v -> @sampler V (linsum2_core L ca) N (nrep L) (sum_u L T) v T.
Proof.
  intros (HS & HF & Hl) He HN HT Hca c Hc Ec. pose proof Hc as (Hn & So & Go & Sr & Gr).
  cbn [sum_u uDout uSout uK uDin] in *.
  destruct (disor_wrows (logits L) c N (nf L) (sin L) (sout L) (nrep L) (sum_u L T) T) as (g & Eg & Wg); auto.
  assert (Esel: sum_select L c = Ok (logits_to_log_weights g 2 T)).
  { unfold sum_select. rewrite Hn, Eg, Ec. reflexivity. }
  destruct (sum_core_lw L c N ca v T g HS Hc Hca Wg) as (lw & Elw & Hlw).
  unfold linsum2_core. rewrite Esel. cbn [lift mbind]. rewrite Elw. cbn [lift mbind].
  unfold linsum2_indices. rewrite mbind_assoc.
  exists lw. eexists. split; [reflexivity|]. split; [exact Hlw|].
  intros kt Sk Gk. rewrite Hn. destruct (view_infer_rows N (nf L) kt HN Sk) as (t & Et & St & Gt).
  rewrite Et. unfold linsum_pad. rewrite He. cbn. exists t. split; [reflexivity|]. split; [exact St|].
  intros; apply Gt; auto.
Qed.

(** ** einsum *)
Definition einsum_cached (L : slay) (N : nat) (ca : option cache) (v : nat -> vals) : Prop :=
  (ca = None /\ v = vone) \/
  exists cl cr, ca = Some (CLR cl cr) /\
    trep cl N (einsum_features_out L) (sin L) (nrep L) (fun n => lval2 (v n)) /\
    trep cr N (einsum_features_out L) (sin L) (nrep L) (fun n d s r => v n (2 * d + 1)%nat s r).

(** Flattening the last two dimensions. *)
Lemma view_flat2 {A} N D S (t : tensor A) : (0 < S)%nat -> shape t = [N; D; S; S] ->
  exists t', view [N; D; S * S]%nat t = Ok t' /\ shape t' = [N; D; S * S]%nat /\
    forall n d k, (n < N)%nat -> (d < D)%nat -> (k < S * S)%nat -> get t' [n; d; k] = get t [n; d; k / S; k mod S]%nat.
Proof.
  intros HS E. unfold view. rewrite E. cbn [numel].
  destruct (Nat.eqb_spec (N * (D * (S * S * 1))) (N * (D * (S * (S * 1))))) as [_|Z]; [|exfalso; apply Z; ring].
  eexists. split; [reflexivity|]. split; [reflexivity|]. intros n d k Hn Hd Hk. cbn [get].
  assert (k / S < S)%nat by (apply Nat.div_lt_upper_bound; lia).
  assert (k mod S < S)%nat by (apply Nat.mod_upper_bound; lia).
  replace (ravel [N; D; (S * S)%nat] [n; d; k]) with (ravel [N; D; S; S] [n; d; (k / S)%nat; (k mod S)%nat]).
  - rewrite unravel_ravel by (simpl; auto). reflexivity.
  - cbn [ravel numel]. rewrite <- (div_mod_flat S k) at 3 by auto. ring.
Qed.

Lemma einsum_select_ok L c N T : einsum_ok L -> T <> 0 -> c_tsum c = T ->
  cgood c N (einsum_features_out L) (sout L) (nrep L) ->
  exists lw, einsum_select L c = Ok lw /\ wrows lw N (einsum_u L T) c.
Proof.
  intros (Hs & Ho & Hr & Hf & He & Hl) HT Ec (Hn & So & Go & Sr & Gr).
  unfold einsum_select, wrows. cbn [einsum_u uDout uK uW]. rewrite Hn, Ec. unfold einsum_weight_shape in Hl.
  set (D := einsum_features_out L) in *. unfold einsum_w.
  set (S := sin L) in *. set (O := sout L) in *. set (Rn := nrep L) in *.
  destruct (logits L) as [sl gl], (c_out c) as [so go], (c_rep c) as [sr gr].
  pose proof Hl as [Hsl Hfin]. cbn [shape get] in Hsl, Hfin, So, Go, Sr, Gr. subst sl so sr. cbn [shape get].
  rewrite expand_ok by expands. cbn [bind].
  cbn [unsq_end unsqueeze shape insert_nth dim length size nth].
  rewrite expand_ok by expands. cbn [bind].
  rewrite gather_ok.
  2: fits.
  2:{ intros idx Hin. cbn [shape] in Hin. inbs. gets. apply Go; auto. }
  cbn [bind shape]. rewrite squeeze_1 by reflexivity. cbn [remove_nth].
  rewrite expand_ok by expands. cbn [bind].
  rewrite gather_ok.
  2: fits.
  2:{ intros idx Hin. cbn [shape] in Hin. inbs. gets. apply Gr; auto. }
  cbn [bind shape]. rewrite squeeze_1 by reflexivity. cbn [remove_nth shape]. rewrite eqb_list_refl. cbn [assert bind].
  cbn [size shape nth].
  match goal with |- context [view [N; D; (S * S)%nat] ?t] => set (t0 := t) end.
  destruct (view_flat2 N D S t0 Hs eq_refl) as (t & Et & St & Gt).
  unfold size. cbn [shape nth]. rewrite Et. cbn [bind].
  eexists. split; [reflexivity|]. split; [rewrite ltlw_shape; exact St|].
  intros n d k Hn' Hd Hk. split; [apply wsoft_pos; nia|].
  apply (lw_rows t N D (S * S) T (fun n d k => gl [d; go [n; d]; gr [n]; (k / S)%nat; (k mod S)%nat])); auto.
  intros n' d' k' Hn'' Hd' Hk'.
  assert (k' / S < S)%nat by (apply Nat.div_lt_upper_bound; lia).
  assert (k' mod S < S)%nat by (apply Nat.mod_upper_bound; lia).
  pose proof (Gr n' Hn''). pose proof (Go n' d' Hn'' Hd').
  split.
  - rewrite Gt by auto. unfold t0. gets. reflexivity.
  - apply (Hfin [d'; go [n'; d']; gr [n']; (k' / S)%nat; (k' mod S)%nat]). simpl. auto 10.
Qed.

Lemma table_lookup_row S k : (k < S * S)%nat -> nth k (unraveled_table S) (0, 0)%nat = (k / S, k mod S)%nat.
Proof.
  unfold unraveled_table. intros Hk.
  assert (HS: (0 < S)%nat) by nia.
  assert (G: forall m b k, (k < m * S)%nat ->
    nth k (flat_map (fun i => map (fun j => (i, j)) (seq 0 S)) (seq b m)) (0, 0)%nat = (b + k / S, k mod S)%nat).
  { induction m; intros b q Hq; [lia|]. cbn [seq flat_map].
    destruct (lt_dec q S) as [Hlt|Hge].
    - rewrite app_nth1 by (rewrite map_length, seq_length; auto). rewrite nth_map_seq by auto.
      rewrite Nat.div_small, Nat.mod_small by auto. f_equal. lia.
    - rewrite app_nth2 by (rewrite map_length, seq_length; lia). rewrite map_length, seq_length.
      rewrite IHm by (rewrite Nat.mul_succ_l in Hq; lia).
      assert (E: (q = (q - S) + 1 * S)%nat) by lia.
      f_equal.
      + rewrite E at 2. rewrite Nat.div_add by lia. lia.
      + rewrite E at 2. rewrite Nat.mod_add by lia. auto. }
  rewrite G by auto. f_equal.
Qed.

Lemma einsum_route L N kt : (0 < N)%nat -> (0 < sin L)%nat -> nf L mod 2 = 0%nat ->
  shape kt = [N; einsum_features_out L] ->
  (forall n d, (n < N)%nat -> (d < einsum_features_out L)%nat -> (get kt [n; d] < sin L * sin L)%nat) ->
  exists i, view_infer [N] [] (mkT (shape kt ++ [2]%nat) (fun idx => table_lookup (sin L) (get kt (removelast idx)) (last idx 0%nat))) = Ok i /\
  shape i = [N; nf L] /\
  forall n d', (n < N)%nat -> (d' < nf L)%nat -> get i [n; d'] =
    if (d' =? 2 * (d' / 2))%nat then (get kt [n; d' / 2] / sin L)%nat else (get kt [n; d' / 2] mod sin L)%nat.
Proof.
  intros HN HS He Sk Gk. rewrite Sk. cbn [app].
  assert (E: (einsum_features_out L * 2 = nf L)%nat).
  { unfold einsum_features_out. pose proof (Nat.div_mod (nf L) 2 ltac:(lia)). lia. }
  match goal with |- context [view_infer _ _ ?t] => destruct (view_infer_pairs N (einsum_features_out L) t HN eq_refl) as (i & Ei & Si & Gi) end.
  exists i. split; [exact Ei|]. split; [rewrite Si, E; reflexivity|].
  intros n d' Hn Hd. rewrite Gi by (auto; lia). cbn [get removelast last].
  unfold table_lookup. rewrite table_lookup_row by (apply Gk; auto; apply Nat.div_lt_upper_bound; lia).
  pose proof (Nat.div_mod d' 2 ltac:(lia)). pose proof (Nat.mod_upper_bound d' 2 ltac:(lia)).
  destruct (Nat.eqb_spec (d' mod 2) 0), (Nat.eqb_spec d' (2 * (d' / 2))); auto; lia.
Qed.

Theorem einsum_sampler {V} L N ca v T : einsum_ok L -> (0 < N)%nat -> T <> 0 ->
  einsum_cached L N ca v -> @sampler V (einsum_sample L ca) N (nrep L) (einsum_u L T) v T.
Proof.
  intros Hok HN HT Hca c Hc Ec. pose proof Hc as (Hn & So & Go & Sr & Gr).
  pose proof Hok as (HS & _ & _ & HF & He & Hl).
  pose proof (einsum_u_wf (nrep L) L T HS He) as Hw.
  destruct (einsum_select_ok L c N T Hok HT Ec Hc) as (lw0 & Esel & Wg).
  assert (HK: (0 < sin L * sin L)%nat) by nia.
  assert (Q: exists lw, match ca with None => Ok lw0 | Some x => einsum_condition L c x lw0 end = Ok lw /\
     lrows lw N (einsum_features_out L) (sin L * sin L) (fun n d k => upost (einsum_u L T) (v n) d (get (c_out c) [n; d]) (get (c_rep c) [n]) k)).
  { destruct Hca as [[-> ->]|(cl & cr & -> & Hcl & Hcr)].
    - eexists. split; [reflexivity|]. apply (wrows_one _ _ _ _ _ Hw Hc Wg).
    - unfold einsum_condition.
      destruct (rep_gather_rows cl N _ _ _ _ (c_rep c) Hcl Sr Gr) as (ll & El & Rl). rewrite El. cbn [bind].
      destruct (rep_gather_rows cr N _ _ _ _ (c_rep c) Hcr Sr Gr) as (lr & Er & Rr). rewrite Er. cbn [bind].
      destruct Rl as [Sl Gl]. destruct Rr as [Sr' Gr']. destruct ll as [sl gl], lr as [sr gr]. cbn [shape get] in *. subst sl sr.
      unfold unsqueeze. cbn [shape insert_nth]. bcast. cbn [bind]. rewrite Hn.
      match goal with |- context [view _ ?t] => set (s0 := t);
        destruct (view_flat2 N (einsum_features_out L) (sin L) s0 HS eq_refl) as (s' & Es' & Ss' & Gs') end.
      rewrite Es'. cbn [bind].
      apply (wrows_post _ (einsum_u L T) N c _ _ v Hw HK Hc Wg). split; [exact Ss'|].
      intros n d k Hn' Hd Hk. cbn [einsum_u uDout uK] in Hd, Hk. rewrite Gs' by auto.
      assert (k / sin L < sin L)%nat by (apply Nat.div_lt_upper_bound; lia).
      assert (k mod sin L < sin L)%nat by (apply Nat.mod_upper_bound; lia).
      unfold s0. gets.
      destruct (Gl n d (k / sin L)%nat) as [P1 ->]; auto. destruct (Gr' n d (k mod sin L)%nat) as [P2 ->]; auto.
      unfold uprod. cbn [einsum_u ukids usel lprod]. rewrite Nat.eqb_refl.
      destruct (Nat.eqb_spec (2 * d + 1) (2 * d)) as [Z|_]; [lia|]. rewrite Rmult_1_r. fold (lval2 (v n) d (k / sin L)%nat (get (c_rep c) [n])).
      split; [apply Rmult_lt_0_compat; auto|].
      simpl. rewrite ln_mul; auto. }
  destruct Q as (lw & Elw & Hlw).
  unfold einsum_sample. rewrite (sample_with_eq _ _ _ _ _ _ _ lw (check_context_ok _ _ _ _ _ Hc) Esel Elw).
  unfold einsum_indices. rewrite mbind_assoc.
  exists lw. eexists. split; [reflexivity|]. split; [exact Hlw|].
  intros kt Sk Gk. rewrite Hn. destruct (einsum_route L N kt HN HS He Sk Gk) as (i & Ei & Si & Gi).
  rewrite Ei. exists i. split; [reflexivity|]. split; [exact Si|].
  intros n d' Hn' Hd'. rewrite Gi by auto. reflexivity.
Qed.

(** ** mixing: the chosen index is a repetition *)
Definition mixing_cached (L : slay) (N : nat) (ca : option cache) (v : nat -> nat -> nat -> R) : Prop :=
  (ca = None /\ v = fun _ _ _ => 1) \/
  exists x, ca = Some (CIn x) /\ shape x = [N; 1; sout L; sin L]%nat /\
    forall n y r, (n < N)%nat -> (y < sout L)%nat -> (r < sin L)%nat ->
      0 < v n y r /\ get x [n; 0%nat; y; r] = Fin (ln (v n y r)).
(** Posterior weight of repetition [r]. *)
Definition mixpost (L : slay) (T : R) (v : nat -> nat -> R) (y r : nat) : R :=
  mixing_w L T y r * v y r / rsum (sin L) (fun r => mixing_w L T y r * v y r).

Lemma mixing_select_ok L c N Rn T : mixing_ok L -> T <> 0 -> c_tsum c = T ->
  cgood c N 1 (sout L) Rn ->
  exists lw, mixing_select L c = Ok lw /\ lrows lw N 1 (sin L) (fun n d k => mixing_w L T (get (c_out c) [n; d]) k).
Proof.
  intros (Hs & Hf & Hl) HT Ec (Hn & So & Go & Sr & Gr).
  unfold mixing_select. rewrite Hn, Ec. unfold mixing_weight_shape in Hl. rewrite Hf in *. unfold mixing_w.
  set (S := sin L) in *. set (O := sout L) in *.
  destruct (logits L) as [sl gl], (c_out c) as [so go].
  pose proof Hl as [Hsl Hfin]. cbn [shape get] in Hsl, Hfin, So, Go. subst sl so. cbn [shape get].
  rewrite expand_ok by expands. cbn [bind].
  cbn [unsq_end unsqueeze shape insert_nth dim length size nth].
  rewrite expand_ok by expands. cbn [bind].
  rewrite gather_ok.
  2: fits.
  2:{ intros idx Hin. cbn [shape] in Hin. inbs. gets. apply Go; auto. }
  cbn [bind shape]. rewrite squeeze_1 by reflexivity. cbn [remove_nth shape]. rewrite eqb_list_refl. cbn [assert bind].
  match goal with |- context [logits_to_log_weights ?t] => set (t0 := t) end.
  eexists. split; [reflexivity|]. split; [reflexivity|].
  intros n d k Hn' Hd Hk. split; [apply wsoft_pos; auto|].
  apply (lw_rows t0 N 1 S T (fun n d k => gl [0%nat; go [n; d]; k])); auto.
  intros n' d' k' Hn'' Hd' Hk'. assert (d' = 0)%nat by lia. subst d'.
  pose proof (Go n' 0%nat Hn'' Hd').
  split.
  - unfold t0. gets. reflexivity.
  - apply (Hfin [0%nat; go [n'; 0%nat]; k']). simpl. auto 10.
Qed.

Theorem mixing_sampler {V} L N Rn ca v T c : mixing_ok L -> T <> 0 -> mixing_cached L N ca v ->
  cgood c N 1 (sout L) Rn -> c_tsum c = T ->
  exists lw, @mixing_sample V L ca c = mbind (choose c lw) (fun i => Ret (set_out c i)) /\
    lrows lw N 1 (sin L) (fun n d r => mixpost L T (v n) (get (c_out c) [n; d]) r).
Proof.
  intros Hok HT Hca Hc Ec. pose proof Hc as (Hn & So & Go & Sr & Gr). pose proof Hok as (HS & Hf & Hl).
  destruct (mixing_select_ok L c N Rn T Hok HT Ec Hc) as (lw0 & Esel & W).
  assert (Q: exists lw, match ca with None => Ok lw0 | Some x => mixing_condition L c x lw0 end = Ok lw /\
     lrows lw N 1 (sin L) (fun n d r => mixpost L T (v n) (get (c_out c) [n; d]) r)).
  { destruct Hca as [[-> ->]|(x & -> & Hx & Gx)].
    - eexists. split; [reflexivity|]. eapply lrows_ext; [exact W|]. intros n d k Hn' Hd Hk. unfold mixpost.
      rewrite (rsum_ext _ _ (mixing_w L T (get (c_out c) [n; d]))) by (intros; ring).
      unfold mixing_w at 3. rewrite wsoft_sum by auto. field.
    - unfold mixing_condition.
      destruct (c_out c) as [so go], x as [sx gx]. cbn [shape get] in So, Go, Hx, Gx, W |- *. subst so sx.
      cbn [unsq_end unsqueeze shape insert_nth dim length size nth].
      rewrite expand_ok by expands. cbn [bind].
      rewrite gather_ok.
      2: fits.
      2:{ intros idx Hin. cbn [shape] in Hin. inbs. gets. apply Go; auto. }
      cbn [bind shape]. rewrite squeeze_1 by reflexivity. cbn [remove_nth].
      apply (renormalize_rows _ _ N 1 (sin L) (fun n d k => mixing_w L T (go [n; d]) k) (fun n d k => v n (go [n; d]) k)); auto.
      split; [reflexivity|]. intros n d k Hn' Hd Hk. assert (d = 0)%nat by lia. subst d. pose proof (Go n 0%nat Hn' Hd).
      gets. apply Gx; auto. }
  destruct Q as (lw & Elw & Hlw). exists lw. split; auto.
  unfold mixing_sample. rewrite Hf. apply (sample_with_eq _ _ _ _ _ _ _ lw (check_context_ok _ _ _ _ _ Hc) Esel Elw).
Qed.

(** ** The root product of a bottom-up network copies the index of the root *)
Lemma rootprod_sample_ok {V} D S N Rn c : cgood c N 1 S Rn ->
  exists c', @rootprod_sample V D c = Ret c' /\ cgood c' N D S Rn /\ c_rep c' = c_rep c /\ c_mpe c' = c_mpe c /\ c_tsum c' = c_tsum c /\
    forall n d, (n < N)%nat -> (d < D)%nat -> get (c_out c') [n; d] = get (c_out c) [n; 0%nat].
Proof.
  intros (Hn & So & Go & Sr & Gr). unfold rootprod_sample, repeat_t, dim. rewrite So. cbn [length repeat set_nth Nat.eqb].
  cbn [lift mbind map2]. eexists. split; [reflexivity|]. unfold set_out. cbn [c_n c_out c_rep c_mpe c_tsum].
  assert (G: forall n d, (n < N)%nat -> (d < D)%nat -> get (c_out c) [n mod N; d mod 1]%nat = get (c_out c) [n; 0%nat]).
  { intros. rewrite Nat.mod_small by auto. rewrite Nat.mod_1_r. reflexivity. }
  split; [|split; auto; split; auto; split; auto; intros; apply G; auto].
  - split; [auto|]. split; [|split; [|split; auto]]; cbn [c_out c_rep shape get map2].
    + f_equal; [|f_equal]; lia.
    + intros n d Hn' Hd. rewrite G by auto. apply Go; auto.
Qed.
