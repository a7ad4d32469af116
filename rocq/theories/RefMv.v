(** Layout of the multivariate leaf layer (model in Mv.v). *)
From Coq Require Import List Arith Lia Bool Reals Lra.
Import ListNotations.
From Verif Require Import Base RSum Num Tensor Prob Layers Circuit Net RefFwd RefSample Leaf Perm RefLeaf RefLeafS Einet RefNet RefEinet RefEinetS MultiDist RefMulti Mv.
Local Open Scope nat_scope.
Local Arguments Nat.div : simpl never. Local Arguments Nat.modulo : simpl never. Local Arguments Nat.sub : simpl never.
Local Arguments Nat.mul : simpl never. Local Arguments Nat.add : simpl never. Local Arguments Nat.min : simpl never.
Local Arguments clamp : simpl never. Local Arguments bdim : simpl never.

(** Entries of a view: positions with the same offset hold the same value. *)
Lemma view_ok {A} s (t : tensor A) : numel s = numel (shape t) ->
  exists y, view s t = Ok y /\ shape y = s /\
    forall idx idx', inb (shape t) idx' -> ravel s idx = ravel (shape t) idx' -> get y idx = get t idx'.
Proof.
  intros H. unfold view. rewrite H, Nat.eqb_refl. eexists. split; [reflexivity|]. split; [reflexivity|].
  intros idx idx' Hi Hr. cbn [get]. rewrite Hr, unravel_ravel; auto.
Qed.
Lemma view_err {A} s (t : tensor A) : numel s <> numel (shape t) -> view s t = Err RuntimeErr.
Proof. intros H. unfold view. apply Nat.eqb_neq in H. rewrite H. reflexivity. Qed.

Lemma ceil_exact a b : 0 < b -> a mod b = 0 -> ceil_div a b * b = a.
Proof.
  intros Hb H. unfold ceil_div. pose proof (Nat.div_mod a b ltac:(lia)) as D. rewrite H in D.
  assert (E: (a + (b - 1)) / b = a / b).
  { symmetry. apply Nat.div_unique with (r := b - 1); lia. }
  rewrite E. lia.
Qed.

Lemma unsq2 {A} (x : tensor A) a b c : shape x = [a; b; c] -> shape (unsq_end 2 x) = [a; b; c; 1; 1] /\
  forall i j l, get (unsq_end 2 x) [i; j; l; 0; 0] = get x [i; j; l].
Proof. destruct x as [s g]. cbn [shape]. intros ->. split; reflexivity. Qed.

Section Mv.
Context {V : Type}.
Variable m : mvleaf V.

Record mv_ok : Prop := {
  mk_C : 0 < mv_C m; mk_F : 0 < mv_F m; mk_L : 0 < mv_L m; mk_R : 0 < mv_R m; mk_k : 0 < mv_k m;
  mk_fin : forall key v, isfin (mv_logp m key v) = true;
  mk_ext : forall key u v, (forall j, j < mv_k m -> u j = v j) -> mv_logp m key u = mv_logp m key v }.
Hypothesis Hm : mv_ok.
Let C := mv_C m. Let F := mv_F m. Let L := mv_L m. Let Rn := mv_R m. Let k := mv_k m. Let G := mv_out m.

Lemma rows_ok : exists t, mv_rows m = Ok t /\ shape t = [mv_dists m] /\
  forall c g l r, c < C -> g < G -> l < L -> r < Rn -> get t [ravel [C; G; L; Rn] [c; g; l; r]] = [c; g; l; r].
Proof.
  unfold mv_rows. destruct (view_ok [mv_dists m] (mkT [mv_C m; mv_out m; mv_L m; mv_R m] (fun idx => idx))) as (t & Et & St & Gt).
  { cbn [numel shape]. unfold mv_dists. ring. }
  exists t. split; [exact Et|]. split; auto. intros c g l r Hc Hg Hl Hr. rewrite (Gt _ [c; g; l; r]); [reflexivity|cbn [inb shape]; auto|].
  cbn [ravel numel shape]. fold C G L Rn. ring.
Qed.

Section Whole.
Hypothesis Hpad : mv_pad m = 0.
Lemma groups_exact : G * k = F.
Proof. apply ceil_exact; auto. apply (mk_k Hm). Qed.

Lemma log_prob_ok N x : shape x = [N; C; F; 1; 1] ->
  exists y, mv_log_prob m x = Ok y /\ shape y = [N; C; G; L; Rn] /\
  forall n c g l r, n < N -> c < C -> g < G -> l < L -> r < Rn ->
    get y [n; c; g; l; r] = mv_logp m [c; g; l; r] (fun j => get x [n; c; g * k + j; 0; 0]).
Proof.
  intros Sx. pose proof groups_exact as EF. unfold mv_log_prob. rewrite Hpad. cbn [guard Nat.eqb]. cbn [bind].
  replace (size x 0) with N by (unfold size; rewrite Sx; reflexivity). fold C F L Rn k G.
  destruct (view_ok [N; C; G; 1; 1; k] x) as (x1 & E1 & S1 & G1).
  { rewrite Sx. cbn [numel]. rewrite <- EF. ring. }
  rewrite E1. cbn [bind]. unfold repeat_t. rewrite S1. cbn [length Nat.eqb bind map2].
  destruct (view_ok [N; mv_dists m; k] (mkT [1 * N; 1 * C; 1 * G; L * 1; Rn * 1; 1 * k] (fun idx => get x1 (map2 Nat.modulo idx [N; C; G; 1; 1; k]))))
    as (x2 & E2 & S2 & G2).
  { cbn [numel shape]. unfold mv_dists. fold C L Rn G. ring. }
  rewrite E2. cbn [bind]. destruct rows_ok as (rows & -> & Sr & Gr). cbn [bind].
  change (size (mkT [N; mv_dists m] _) 0) with N.
  match goal with |- context [view _ ?T] => destruct (view_ok [N; C; G; L; Rn] T) as (y & Ey & Sy & Gy) end.
  { cbn [numel shape]. unfold mv_dists. fold C L Rn G. ring. }
  rewrite Ey. exists y. split; auto. split; auto. intros n c g l r Hn Hc Hg Hl Hr.
  set (d := ravel [C; G; L; Rn] [c; g; l; r]).
  assert (Hd: d < mv_dists m).
  { replace (mv_dists m) with (numel [C; G; L; Rn]) by (cbn [numel]; unfold mv_dists; fold C L Rn G; ring). apply ravel_lt. cbn [inb]. auto. }
  rewrite (Gy _ [n; d]).
  2:{ cbn [inb shape]. auto. }
  2:{ cbn [ravel numel shape]. unfold d, mv_dists. cbn [ravel numel]. fold C L Rn G. ring. }
  cbn [get]. unfold d at 1. rewrite Gr by auto. apply (mk_ext Hm). intros j Hj. fold k in Hj.
  rewrite (G2 _ [n; c; g; l; r; j]).
  2:{ cbn [inb shape]. lia. }
  2:{ cbn [ravel numel shape]. unfold d, mv_dists. cbn [ravel numel]. fold C L Rn G. ring. }
  cbn [get map2]. rewrite !Nat.mod_1_r. rewrite !Nat.mod_small by auto.
  apply G1.
  - rewrite Sx. cbn [inb]. assert (g * k + j < F) by nia. auto 10.
  - rewrite Sx. cbn [ravel numel]. rewrite <- EF. ring.
Qed.

Lemma dist_lt c g l r : c < C -> g < G -> l < L -> r < Rn -> ravel [C; G; L; Rn] [c; g; l; r] < mv_dists m.
Proof.
  intros. replace (mv_dists m) with (numel [C; G; L; Rn]) by (cbn [numel]; unfold mv_dists; fold C L Rn G; ring). apply ravel_lt. cbn [inb]. auto.
Qed.
Lemma arrange_ok N s : numel (shape s) = numel [N; mv_dists m; k] -> exists y, mv_arrange m N s = Ok y /\ shape y = [N; C; F; L; Rn] /\
  forall n c g j l r idx, n < N -> c < C -> g < G -> j < k -> l < L -> r < Rn -> inb (shape s) idx ->
    ravel (shape s) idx = ravel [N; mv_dists m; k] [n; ravel [C; G; L; Rn] [c; g; l; r]; j] ->
    get y [n; c; g * k + j; l; r] = get s idx.
Proof.
  intros Ss. pose proof groups_exact as EF. unfold mv_arrange. fold C F L Rn k G.
  destruct (view_ok [N; C; G; L; Rn; k] s) as (s1 & E1 & S1 & G1).
  { rewrite Ss. cbn [numel]. unfold mv_dists. fold C L Rn G. ring. }
  rewrite E1. cbn [bind]. set (p := permute _ s1).
  assert (Sp: shape p = [N; C; G; k; L; Rn]). { unfold p, permute, size. cbn [shape map]. rewrite S1. reflexivity. }
  assert (Gp: forall n c g j l r, get p [n; c; g; j; l; r] = get s1 [n; c; g; l; r; j]) by reflexivity.
  clearbody p. destruct (view_ok [N; C; F; L; Rn] p) as (y & Ey & Sy & Gy).
  { rewrite Sp. cbn [numel]. rewrite <- EF. ring. }
  rewrite Ey. exists y. split; auto. split; auto. intros n c g j l r idx Hn Hc Hg Hj Hl Hr Hi Ei.
  rewrite (Gy _ [n; c; g; j; l; r]).
  2:{ rewrite Sp. cbn [inb]. auto 10. }
  2:{ rewrite Sp. cbn [ravel numel]. rewrite <- EF. ring. }
  rewrite Gp. apply G1; auto. rewrite Ei. unfold mv_dists. cbn [ravel numel]. fold C L Rn G. ring.
Qed.

(** ** The forward pass *)
Definition complete (N : nat) (x : tensor (option V)) (d : nat -> nat -> nat -> V) : Prop :=
  shape x = [N; C; F] /\ forall n c f, n < N -> c < C -> f < F -> get x [n; c; f] = Some (d n c f).
(** The groups whose features are named. *)
Definition touched (ms : option (bool * list nat)) (g : nat) : bool :=
  match ms with None => false | Some (_, s) => existsb (Nat.eqb g) (map (fun f => f / k) s) end.

Lemma no_nan N x d : complete N x d -> existsb (fun idx => is_nan (get x idx)) (all_idx (shape x)) = false.
Proof.
  intros [Sx Gx]. apply Bool.not_true_is_false. intros H. apply existsb_exists in H as (idx & Hi & Hn). apply in_all_idx in Hi.
  rewrite Sx in Hi. inbs. rewrite Gx in Hn by auto. discriminate.
Qed.

Lemma mv_forward_ok N x d ms : complete N x d ->
  match ms with None => True | Some (b, s) => (1 < k -> b = true) /\ forall f, In f s -> f < F end ->
  exists y, mv_forward m x ms = Ok y /\ shape y = [N; C; G; L; Rn] /\
  forall n c g l r, n < N -> c < C -> g < G -> l < L -> r < Rn ->
    get y [n; c; g; l; r] = if touched ms g then Fin 0 else mv_logp m [c; g; l; r] (fun j => d n c (g * k + j)).
Proof.
  intros Hx Hms. pose proof groups_exact as EF. unfold mv_forward. rewrite (no_nan _ _ _ Hx). destruct Hx as [Sx Gx].
  set (x0 := tmap _ x). assert (S0: shape x0 = [N; C; F]) by exact Sx.
  assert (G0: forall n c f, n < N -> c < C -> f < F -> get x0 [n; c; f] = d n c f).
  { intros n c f Hn Hc Hf. unfold x0, tmap. cbn [get]. rewrite Gx by auto. reflexivity. }
  clearbody x0. unfold dim at 1. rewrite S0. cbn [length Nat.eqb].
  destruct (log_prob_ok N (unsq_end 2 x0)) as (y & Ey & Sy & Gy).
  { apply unsq2; auto. }
  rewrite Ey. cbn [bind].
  assert (Gy': forall n c g l r, n < N -> c < C -> g < G -> l < L -> r < Rn ->
    get y [n; c; g; l; r] = mv_logp m [c; g; l; r] (fun j => d n c (g * k + j))).
  { intros n c g l r Hn Hc Hg Hl Hr. rewrite Gy by auto. apply (mk_ext Hm). intros j Hj. fold k in Hj.
    rewrite (proj2 (unsq2 x0 _ _ _ S0)). apply G0; auto. nia. }
  clear Gy. assert (Sz: size y 2 = G) by (unfold size; rewrite Sy; reflexivity).
  assert (Z: forall s, (forall f, In f s -> f < G) -> exists y', marginalize_input y (Some s) = Ok y' /\ shape y' = [N; C; G; L; Rn] /\
     forall n c g l r, n < N -> c < C -> g < G -> l < L -> r < Rn ->
       get y' [n; c; g; l; r] = if existsb (Nat.eqb g) s then Fin 0 else mv_logp m [c; g; l; r] (fun j => d n c (g * k + j))).
  { intros s Hs. unfold marginalize_input. rewrite Sz.
    replace (forallb (fun f => f <? G) s) with true by (symmetry; apply forallb_forall; intros; apply Nat.ltb_lt; auto).
    cbn [guard]. cbn [bind]. eexists. split; [reflexivity|]. split; [exact Sy|]. intros. cbn [get nth]. rewrite Gy' by auto. reflexivity. }
  destruct ms as [[b s]|].
  - destruct Hms as [Hb Hs]. unfold mv_marginalize, touched. fold k.
    assert (Hs': forall f, In f (map (fun f => f / k) s) -> f < G).
    { intros f Hf. apply in_map_iff in Hf as (f0 & <- & Hf0). apply Nat.div_lt_upper_bound; [pose proof (mk_k Hm); fold k in H; lia|].
      rewrite Nat.mul_comm, EF. auto. }
    destruct (Nat.ltb_spec 1 k) as [Hk|Hk].
    + rewrite Hb by auto. cbn [guard]. cbn [bind]. apply Z; auto.
    + assert (k = 1) by (pose proof (mk_k Hm); fold k in H; lia). rewrite (map_ext _ (fun f => f)) in * by (intros; rewrite H; apply Nat.div_1_r).
      rewrite map_id in *. apply Z; auto.
  - cbn [mv_marginalize marginalize_input]. eexists. split; [reflexivity|]. split; [exact Sy|]. intros. cbn [get touched]. rewrite Gy' by auto.
    pose proof (mk_fin Hm [c; g; l; r] (fun j => d n c (g * k + j))) as Q. destruct (mv_logp m [c; g; l; r] _); auto; discriminate.
Qed.

(** A missing entry and groups of at least two features. *)
Lemma mv_forward_missing N x ms n c f : shape x = [N; C; F] -> n < N -> c < C -> f < F -> get x [n; c; f] = None -> 1 < k ->
  mv_forward m x ms = Err IndexErr.
Proof.
  intros Sx Hn Hc Hf Hg Hk. pose proof groups_exact as EF. unfold mv_forward.
  assert (Z: existsb (fun idx => is_nan (get x idx)) (all_idx (shape x)) = true).
  { apply existsb_exists. exists [n; c; f]. split; [apply in_all_idx; rewrite Sx; cbn [inb]; auto|]. rewrite Hg. reflexivity. }
  rewrite Z. set (x0 := tmap _ x). assert (S0: shape x0 = [N; C; F]) by exact Sx. clearbody x0. unfold dim at 1. rewrite S0. cbn [length Nat.eqb].
  destruct (log_prob_ok N (unsq_end 2 x0)) as (y & Ey & Sy & Gy).
  { apply unsq2; auto. }
  rewrite Ey. cbn [bind]. unfold dim. rewrite Sx, Sy. cbn [length firstn].
  destruct (eqb_list [N; C; G] [N; C; F]) eqn:E; [|reflexivity]. apply eqb_list_eq in E. inversion E as [E']. pose proof (mk_F Hm) as HF. fold F in HF. nia.
Qed.
(** A list of marginalized scopes and groups of at least two features. *)
Lemma mv_forward_list N x d s : complete N x d -> 1 < k -> mv_forward m x (Some (false, s)) = Err AttributeErr.
Proof.
  intros Hx Hk. unfold mv_forward. rewrite (no_nan _ _ _ Hx). destruct Hx as [Sx Gx].
  set (x0 := tmap _ x). assert (S0: shape x0 = [N; C; F]) by exact Sx. clearbody x0. unfold dim at 1. rewrite S0. cbn [length Nat.eqb].
  destruct (log_prob_ok N (unsq_end 2 x0)) as (y & Ey & Sy & Gy).
  { apply unsq2; auto. }
  rewrite Ey. cbn [bind mv_marginalize]. fold k. apply Nat.ltb_lt in Hk. rewrite Hk. reflexivity.
Qed.

(** ** Sampling *)
(** [carries s u]: the layout [N, 1, C, F, L, R, 1] holds the vectors [u]. *)
Definition carries (N : nat) (s : tensor V) (u : nat -> nat -> nat -> nat -> nat -> nat -> V) : Prop :=
  shape s = [N; 1; C; F; L; Rn; 1] /\
  forall n c g j l r, n < N -> c < C -> g < G -> j < k -> l < L -> r < Rn -> get s [n; 0; c; g * k + j; l; r; 0] = u n c g l r j.

Lemma mv_draw_modes N : exists s, mv_draw m N true = Ret s /\ carries N s (fun n c g l r j => mv_mean m [c; g; l; r] j).
Proof.
  unfold mv_draw. destruct rows_ok as (rows & -> & Sr & Gr). cbn [lift mbind]. unfold repeat_t. cbn [unsqueeze insert_nth shape length Nat.eqb].
  cbn [lift mbind map2]. set (s0 := mkT _ _).
  destruct (arrange_ok N s0) as (y & Ey & Sy & Gy).
  { unfold s0. cbn [shape numel]. fold k. ring. }
  rewrite Ey. cbn [lift mbind]. eexists. split; [reflexivity|]. split.
  { cbn [unsqueeze shape]. rewrite Sy. reflexivity. }
  intros n c g j l r Hn Hc Hg Hj Hl Hr. cbn [unsqueeze get remove_nth].
  set (dd := ravel [C; G; L; Rn] [c; g; l; r]). assert (Hd: dd < mv_dists m) by (apply dist_lt; auto).
  rewrite (Gy n c g j l r [n; 0; 0; dd; j]); auto.
  - unfold s0. cbn [get map2 remove_nth unsqueeze insert_nth shape]. fold k. rewrite (Nat.mod_small dd), (Nat.mod_small j) by auto.
    unfold dd. rewrite Gr by auto. reflexivity.
  - unfold s0. cbn [shape inb]. fold k. rewrite !Nat.mul_1_l, ?Nat.mul_1_r. auto 10.
  - fold dd. clearbody dd. unfold s0. cbn [shape ravel numel]. fold k. ring.
Qed.

(** One draw of a vector per row, channel, group, leaf and repetition. *)
Lemma mv_draw_outcome N supp r : outcome supp (mv_draw m N false) r ->
  exists s u, r = Ok s /\ carries N s u /\
  forall n c g l q, n < N -> c < C -> g < G -> l < L -> q < Rn -> supp [c; g; l; q] (u n c g l q).
Proof.
  unfold mv_draw. destruct rows_ok as (rows & -> & Sr & Gr). cbn [lift mbind]. intros Ho.
  apply outcome_bind in Ho as [(e & Ho & _)|(t & Ho & Hr)].
  { destruct (proj1 (indep_draw (fun _ => mv_zero m) [N; mv_dists m] (fun idx => get rows (skipn 1 idx))) _ _ Ho) as (t & Z & _). discriminate. }
  destruct (proj1 (indep_draw (fun _ => mv_zero m) [N; mv_dists m] (fun idx => get rows (skipn 1 idx))) _ _ Ho) as (t' & Z & St & Gt).
  inversion Z; subst t'; clear Z Ho. revert Hr. set (s0 := mkT _ _). intros Hr.
  destruct (arrange_ok N s0) as (y & Ey & Sy & Gy).
  { reflexivity. }
  rewrite Ey in Hr. cbn [lift mbind] in Hr. apply outcome_ret_inv in Hr. subst r.
  eexists. exists (fun n c g l q j => get t [n; ravel [C; G; L; Rn] [c; g; l; q]] j). split; [reflexivity|]. split.
  - split; [cbn [unsqueeze shape]; rewrite Sy; reflexivity|]. intros n c g j l q Hn Hc Hg Hj Hl Hq. cbn [unsqueeze get remove_nth].
    rewrite (Gy n c g j l q [n; ravel [C; G; L; Rn] [c; g; l; q]; j]); auto.
    unfold s0. cbn [shape inb]. fold k. pose proof (dist_lt c g l q Hc Hg Hl Hq). auto.
  - intros n c g l q Hn Hc Hg Hl Hq. pose proof (dist_lt c g l q Hc Hg Hl Hq) as Hd.
    specialize (Gt [n; ravel [C; G; L; Rn] [c; g; l; q]]). cbn [inb skipn] in Gt. rewrite Gr in Gt by auto. apply Gt. auto.
Qed.

(** Selection of the repetition. *)
Let flat : bleaf V := mkLf C F L Rn (fun _ _ => NaN) (fun _ => true) (mv_zero m) None true.
Lemma carries_select N s u c D : carries N s u -> cgood c N D L Rn ->
  exists t, leaf_select s None (c_rep c) = Ok t /\ shape t = [N; C; F; L] /\
  forall n ch g j l, n < N -> ch < C -> g < G -> j < k -> l < L -> get t [n; ch; g * k + j; l] = u n ch g l (get (c_rep c) [n]) j.
Proof.
  intros [Ss Gs] Hc. destruct (leaf_select_none flat c N D L Rn s Hc eq_refl eq_refl Ss) as (t & Et & St & Gt).
  exists t. split; auto. split; auto. intros n ch g j l Hn Hch Hg Hj Hl. pose proof groups_exact.
  rewrite Gt; auto; [|cbn [flat lf_F]; nia]. apply Gs; auto. apply Hc; auto.
Qed.

(** FactorizedLeaf: feature f is taken from the component selected for group f mod G. *)
Lemma fact_index_k Fo sc grp c N t : 0 < N -> scopes_grp sc G Fo Rn grp -> cgood c N Fo L Rn -> shape t = [N; C; F; L] ->
  exists y, mv_fact_index m Fo sc (c_n c) (c_out c) (c_rep c) t = Ok y /\ shape y = [N; C; F] /\
  forall n ch f, n < N -> ch < C -> f < F ->
    get y [n; ch; f] = get t [n; ch; f; get (c_out c) [n; grp (get (c_rep c) [n]) (f mod G)]].
Proof.
  intros HN (Ssc & Gl & Gsc) (En & So & Go & Sr & Gr) Ht. pose proof groups_exact as EF.
  assert (HG: G <> 0) by (pose proof (mk_F Hm); fold F in H; nia).
  unfold mv_fact_index. fold C F L k. rewrite En, Ht, eqb_list_refl. cbn [assert guard bind].
  destruct t as [st gt], sc as [ssc gsc], (c_out c) as [so go], (c_rep c) as [sr gr]. cbn [shape get] in *. subst.
  unfold index_dim. cbn [shape]. unfold size. cbn [shape nth].
  replace (forallb _ _) with true.
  2:{ symmetry. apply forallb_forall. intros i Hi. apply in_seq0 in Hi. cbn [get]. apply Nat.ltb_lt. auto. }
  cbn [bind set_nth]. set (sel := permute _ _).
  assert (Ssel: shape sel = [c_n c; G; Fo]) by reflexivity.
  assert (Gsel: forall n f o, get sel [n; f; o] = gsc [f; o; gr [n]]) by reflexivity.
  clearbody sel. rewrite Ssel. cbn [removelast].
  set (g := mkT [c_n c; G] _).
  assert (Gg: forall n f, n < c_n c -> f < G -> get g [n; f] = grp (gr [n]) f).
  { intros n f Hn Hf. unfold g. cbn [get app].
    rewrite (map_ext_in _ (fun o => if Nat.eqb (grp (gr [n]) f) o then o else 0)).
    2:{ intros o Ho. apply in_seq0 in Ho. rewrite Gsel, Gsc by auto. destruct (Nat.eqb _ _); lia. }
    assert (HL: grp (gr [n]) f < Fo) by auto. revert HL. generalize (grp (gr [n]) f). intros i.
    assert (Z: forall mm, list_sum (map (fun o => if Nat.eqb i o then o else 0) (seq 0 mm)) = if Nat.ltb i mm then i else 0).
    { induction mm; [reflexivity|]. rewrite seq_S_app, map_app, list_sum_app, IHmm. cbn [map list_sum fold_right].
      change (0 + mm) with mm. unfold list_sum. cbn [fold_right].
      destruct (Nat.ltb_spec i mm), (Nat.ltb_spec i (S mm)), (Nat.eqb_spec i mm); lia. }
    intros HL. rewrite Z. destruct (Nat.ltb_spec i Fo); lia. }
  assert (Sg: shape g = [c_n c; G]) by reflexivity. clearbody g.
  rewrite gather_ok.
  2:{ rewrite Sg. cbn [gather_fits shape combine forallb length]. rewrite Nat.leb_refl. reflexivity. }
  2:{ intros idx Hin. rewrite Sg in Hin. inbs. rewrite Gg by auto. unfold size; cbn [shape nth]. auto. }
  cbn [bind]. rewrite Sg.
  destruct (view_infer_mid (c_n c) G (mkT [c_n c; G] (fun idx => get (mkT [c_n c; Fo] go) (set_nth 1 (get g idx) idx))) HN eq_refl)
    as (i1 & -> & S1 & G1). cbn [bind]. rewrite S1. cbn [nth].
  rewrite expand_ok by (rewrite S1; expands). cbn [bind]. rewrite S1.
  unfold repeat_t. cbn [shape length Nat.eqb bind map2]. rewrite !Nat.mul_1_l. rewrite (Nat.mul_comm k G), EF.
  rewrite gather_ok.
  2:{ fits. }
  2:{ intros idx Hin. cbn [shape] in Hin. inbs. cbn [get map2]. rewrite bproj_same by reflexivity. cbn [bidx].
      repeat match goal with |- context [?a mod ?b] => match goal with H : a < b |- _ => rewrite (Nat.mod_small a b H) end end.
      match goal with H : ?f < F |- context [?f mod G] => pose proof (Nat.mod_upper_bound f G HG) end. clamps.
      rewrite G1 by auto. cbn [get set_nth]. rewrite Gg by auto. unfold size; cbn [shape nth]. auto. }
  cbn [bind shape]. rewrite squeeze_1 by reflexivity. cbn [remove_nth]. eexists. split; [reflexivity|]. split; [reflexivity|].
  intros n ch f Hn Hc Hf. cbn [get insert_nth map2 set_nth]. rewrite bproj_same by reflexivity. cbn [bidx].
  rewrite (Nat.mod_small n), (Nat.mod_small ch), (Nat.mod_small 0 1) by (auto; lia). pose proof (Nat.mod_upper_bound f G HG).
  clamps. rewrite G1 by auto. cbn [get set_nth]. rewrite Gg by auto. reflexivity.
Qed.

(** FactorizedLeafSimple: only the first G features are returned. *)
Lemma simple_index_k Fo pl c N Rq t : 0 < Fo -> is_perm pl (G + simple_dummy G Fo) -> cgood c N Fo L Rq -> shape t = [N; C; F; L] ->
  exists y, mv_simple_index m Fo (vec (argsort pl)) (c_n c) (c_out c) t = Ok y /\ shape y = [N; C; G] /\
  forall n ch f, n < N -> ch < C -> f < G -> get y [n; ch; f] = get t [n; ch; f; get (c_out c) [n; simple_sgrp G Fo pl f]].
Proof.
  intros HFo Hp (En & So & Go & _) Ht. pose proof groups_exact as EF. assert (GF: G <= F) by (pose proof (mk_k Hm); fold k in H; nia).
  unfold mv_simple_index. fold C F L G. rewrite En, Ht, eqb_list_refl. cbn [assert guard bind].
  destruct t as [st gt], (c_out c) as [so go]. cbn [shape get] in *. subst.
  set (cd := simple_card G Fo). set (dm := simple_dummy G Fo) in *.
  assert (ET: G + dm = cd * Fo) by (apply simple_total; auto).
  set (N := c_n c) in *.
  unfold size. cbn [unsqueeze insert_nth shape nth].
  rewrite expand_ok by expands. cbn [bind unsqueeze insert_nth shape nth].
  unfold view. cbn [shape numel].
  destruct (Nat.eqb_spec (N * (C * ((G + dm) * 1))) (N * (C * (cd * (Fo * 1))))) as [_|Z].
  2:{ exfalso. apply Z. rewrite ET. ring. }
  cbn [bind]. unfold index_dim, vec. cbn [shape]. rewrite argsort_length, (is_perm_length _ _ Hp).
  unfold size. cbn [shape nth].
  pose proof (argsort_perm _ _ Hp) as Hq.
  replace (forallb _ _) with true.
  2:{ symmetry. apply forallb_forall. intros i Hi. apply in_seq0 in Hi. cbn [get hd]. apply Nat.ltb_lt. eapply is_perm_lt; eauto. }
  cbn [bind set_nth].
  set (o2 := mkT [N; C; G + dm] _).
  assert (G2: forall n ch f, n < N -> ch < C -> f < G + dm -> get o2 [n; ch; f] = go [n; simple_sgrp G Fo pl f]).
  { intros n ch f Hn Hc Hf. unfold o2. cbn [get set_nth nth hd].
    set (i := nth f (argsort pl) 0).
    assert (Hk: i < cd * Fo) by (unfold i; rewrite <- ET; eapply is_perm_lt; eauto).
    assert (Hk1: i / Fo < cd) by (apply Nat.div_lt_upper_bound; lia).
    assert (Hk2: i mod Fo < Fo) by (apply Nat.mod_upper_bound; lia).
    replace (ravel [N; C; G + dm] [n; ch; i]) with (ravel [N; C; cd; Fo] [n; ch; i / Fo; i mod Fo]).
    2:{ cbn [ravel numel]. rewrite ET. pose proof (Nat.div_mod i Fo). nia. }
    rewrite unravel_ravel by (cbn [inb]; auto). rewrite bproj_same by reflexivity. cbn [bidx remove_nth]. clamps. reflexivity. }
  assert (S2: shape o2 = [N; C; G + dm]) by reflexivity. clearbody o2.
  set (o3 := if (0 <? dm)%nat then _ else _).
  assert (S3: shape o3 = [N; C; G] /\ forall idx, get o3 idx = get o2 idx).
  { unfold o3. destruct (Nat.ltb_spec 0 dm).
    - split; [|reflexivity]. unfold take, size. cbn [shape]. rewrite S2. cbn [nth set_nth].
      replace (Nat.min (G + dm - dm) (G + dm)) with G by lia. reflexivity.
    - split; auto. rewrite S2. replace dm with 0 by lia. rewrite Nat.add_0_r. auto. }
  destruct S3 as [S3 G3]. clearbody o3.
  rewrite gather_ok.
  2:{ cbn [unsqueeze shape]. rewrite S3. cbn [insert_nth gather_fits shape combine forallb fst snd length]. rewrite !Nat.leb_refl.
      apply Nat.leb_le in GF. rewrite GF. reflexivity. }
  2:{ intros idx Hin. cbn [unsqueeze shape] in Hin. rewrite S3 in Hin. cbn [insert_nth] in Hin. inbs.
      unfold size; cbn [get unsqueeze remove_nth shape nth]. rewrite G3, G2 by (auto; lia). apply Go; auto.
      unfold simple_sgrp. apply Nat.mod_upper_bound. lia. }
  cbn [bind unsqueeze shape]. rewrite S3. cbn [insert_nth]. rewrite squeeze_1 by reflexivity. cbn [remove_nth].
  eexists. split; [reflexivity|]. split; [reflexivity|].
  intros n ch f Hn Hc Hf. cbn [get insert_nth unsqueeze remove_nth set_nth]. rewrite G3, G2 by (auto; lia). reflexivity.
Qed.
End Whole.

(** Features that do not fill the groups: never evaluated, and never sampled. *)
Lemma pad_forward x ms : mv_pad m <> 0 -> mv_forward m x ms = Err NotImplementedErr.
Proof.
  intros H. unfold mv_forward, mv_log_prob. apply Nat.eqb_neq in H. rewrite H. reflexivity.
Qed.
Lemma pad_arrange N s : mv_pad m <> 0 -> 0 < N -> mv_arrange m N s = Err RuntimeErr.
Proof.
  intros H HN. unfold mv_arrange. fold C F L Rn k G.
  destruct (Nat.eqb_spec (numel [N; C; G; L; Rn; k]) (numel (shape s))) as [E|E].
  2:{ rewrite view_err by auto. reflexivity. }
  destruct (view_ok [N; C; G; L; Rn; k] s E) as (s1 & E1 & S1 & _). rewrite E1. cbn [bind].
  apply view_err. unfold permute, size. cbn [shape map]. rewrite S1. cbn [nth numel].
  intros Z. destruct Hm as [HC HF HL HR Hk _ _]. fold C F L Rn k in HC, HF, HL, HR, Hk.
  assert (Z2: F * (N * C * L * Rn) = (G * k) * (N * C * L * Rn)) by nia.
  apply Nat.mul_cancel_r in Z2; [|nia]. apply H. unfold mv_pad. fold F k. rewrite Z2. apply Nat.mod_mul. lia.
Qed.
End Mv.

(** ** Networks over groups *)
Lemma layouts {A} (x : tensor A) N C F : 0 < C -> wshape (shape x) N C F ->
  exists y, (x <- (if dim (if dim x =? 2 then unsqueeze 1 x else x) =? 4
                   then view_infer [size (if dim x =? 2 then unsqueeze 1 x else x) 0; C] [] (if dim x =? 2 then unsqueeze 1 x else x)
                   else Ok (if dim x =? 2 then unsqueeze 1 x else x)) ;;
             _ <- assert (dim x =? 3) ;; _ <- assert (size x 1 =? C) ;; _ <- assert (size x 2 =? F) ;; Ok x) = Ok y /\
    shape y = [N; C; F] /\ forall n c f, n < N -> c < C -> f < F -> get y [n; c; f] = entry x n c f.
Proof.
  intros HC H. pose proof H as H'. destruct x as [s g]. cbn [shape] in *.
  destruct H as [(-> & EC)|[->|(Hh & W & -> & EF & HN)]].
  - change (dim (mkT [N; F] g)) with 2. cbn [Nat.eqb]. change (dim (unsqueeze 1 (mkT [N; F] g))) with 3. cbn [Nat.eqb bind].
    change (dim (unsqueeze 1 (mkT [N; F] g))) with 3.
    change (size (unsqueeze 1 (mkT [N; F] g)) 1) with 1. rewrite EC. cbn [Nat.eqb assert guard bind].
    change (size (unsqueeze 1 (mkT [N; F] g)) 2) with F. rewrite ?Nat.eqb_refl. cbn [assert guard bind].
    eexists. split; [reflexivity|]. split; [reflexivity|]. intros n c f _ _ _. reflexivity.
  - unfold dim, size. cbn [shape length nth Nat.eqb bind]. rewrite ?Nat.eqb_refl. cbn [assert guard bind shape nth].
    rewrite ?Nat.eqb_refl. cbn [assert guard bind].
    eexists. split; [reflexivity|]. split; [reflexivity|]. reflexivity.
  - change (dim (mkT [N; C; Hh; W] g)) with 4. cbn [Nat.eqb]. change (dim (mkT [N; C; Hh; W] g)) with 4. cbn [Nat.eqb].
    unfold view_infer, size. cbn [shape nth app]. cbn [numel].
    destruct (Nat.eqb_spec (N * (C * 1) * 1) 0) as [Z|Z]; [lia|].
    replace (N * (C * (Hh * (W * 1))) / (N * (C * 1) * 1)) with F.
    2:{ apply Nat.div_unique with (r := 0); [lia|]. rewrite <- EF. ring. }
    destruct (view_3 (mkT [N; C; Hh; W] g) N C F H') as (y & -> & Sy & Gy). cbn [bind].
    unfold dim. rewrite Sy. cbn [length nth Nat.eqb]. rewrite !Nat.eqb_refl. cbn [assert guard bind].
    exists y. auto.
Qed.

Section Net.
Context {V : Type}.
Variable m : mvleaf V.
Hypothesis Hm : mv_ok m.
Variable E : einet (nat -> V).
Hypothesis HE : einet_ok E.
Hypothesis El : leaf_of (e_leaf E) = shell m.

Lemma net_dims : e_C E = mv_C m /\ e_F E = mv_out m /\ e_L E = mv_L m /\ e_R E = mv_R m.
Proof.
  pose proof (eo_lC E HE) as H1. pose proof (eo_lF E HE) as H2. pose proof (eo_lL E HE) as H3. pose proof (eo_lR E HE) as H4.
  rewrite El in *. cbn in *. auto.
Qed.
(** The data as the network over groups sees it: group g of a row is the vector of its features g*k ... g*k+k-1. *)
Definition grouped (N : nat) (x : tensor (option V)) : tensor (option (nat -> V)) :=
  mkT [N; mv_C m; mv_out m] (fun idx => match idx with
    | [n; c; g] => Some (fun j => match entry x n c (g * mv_k m + j) with Some v => v | None => mv_zero m end)
    | _ => None end).
Definition group_scopes (ms : option (bool * list nat)) : option (list nat) :=
  match ms with None => None | Some (_, s) => Some (map (fun f => f / mv_k m) s) end.

Section Whole.
Hypothesis Hpad : mv_pad m = 0.
Variables (N : nat) (x : tensor (option V)) (ms : option (bool * list nat)).
Hypothesis Hx : wshape (shape x) N (mv_C m) (mv_F m).
Hypothesis Hfull : forall n c f, n < N -> c < mv_C m -> f < mv_F m -> entry x n c f <> None.
Hypothesis Hms : match ms with None => True | Some (b, s) => (1 < mv_k m -> b = true) /\ forall f, In f s -> f < mv_F m end.

Lemma prepared : exists w d, (forall k, (x <- (if dim (if dim x =? 2 then unsqueeze 1 x else x) =? 4
                   then view_infer [size (if dim x =? 2 then unsqueeze 1 x else x) 0; mv_C m] [] (if dim x =? 2 then unsqueeze 1 x else x)
                   else Ok (if dim x =? 2 then unsqueeze 1 x else x)) ;;
             _ <- assert (dim x =? 3) ;; _ <- assert (size x 1 =? mv_C m) ;; _ <- assert (size x 2 =? mv_F m) ;; k x) = k w :> res (tensor num * caches)) /\
  complete m N w d /\ forall n c f, n < N -> c < mv_C m -> f < mv_F m -> entry x n c f = Some (d n c f).
Proof.
  destruct (layouts x N (mv_C m) (mv_F m) (mk_C m Hm) Hx) as (w & Ew & Sw & Gw).
  exists w, (fun n c f => match entry x n c f with Some v => v | None => mv_zero m end). split; [|split].
  - intros kk. revert Ew. match goal with |- context [bind ?A _] => destruct A as [x1|]; [|discriminate] end. cbn [bind].
    destruct (dim x1 =? 3); [|discriminate]. cbn [assert guard bind]. destruct (size x1 1 =? mv_C m); [|discriminate]. cbn [assert guard bind].
    destruct (size x1 2 =? mv_F m); [|discriminate]. cbn [assert guard bind]. congruence.
  - split; auto. intros n c f Hn Hc Hf. rewrite Gw by auto. specialize (Hfull n c f Hn Hc Hf). destruct (entry x n c f); congruence.
  - intros n c f Hn Hc Hf. specialize (Hfull n c f Hn Hc Hf). destruct (entry x n c f); congruence.
Qed.

Theorem mv_net_forward : (forall lf, e_leaf E <> LBase lf) ->
  exists y cs y', mv_einet_forward E m x ms = Ok (y, cs) /\ forward E (grouped N x) (group_scopes ms) = Ok y' /\
    shape y = [N; e_K E] /\ shape y' = [N; e_K E] /\
    forall n k, n < N -> k < e_K E -> get y [n; k] = get y' [n; k] /\ isfin (get y [n; k]) = true.
Proof.
  intros Hb. destruct net_dims as (EC & EG & EL' & ER). pose proof (groups_exact m Hm Hpad) as EF.
  destruct prepared as (w & d & Ew & Hw & Gd).
  destruct (mv_forward_ok m Hm Hpad N w d ms Hw Hms) as (t & Et & St & Gt).
  assert (Hi: input_ok E N (grouped N x) (group_scopes ms)).
  { split; [right; left; cbn [grouped shape]; rewrite EC, EG; auto|]. split.
    - intros n c f v _ _ _ _. rewrite El. reflexivity.
    - destruct ms as [[b s]|]; cbn [group_scopes]; auto. split.
      + intros f Hf. apply in_map_iff in Hf as (f0 & <- & Hf0). rewrite EG. apply Nat.div_lt_upper_bound; [pose proof (mk_k m Hm); lia|].
        rewrite Nat.mul_comm, EF. apply Hms; auto.
      + intros n c f Hn Hc Hf _. unfold entry. cbn [grouped shape ix get]. discriminate. }
  destruct (forward_rep E HE N (grouped N x) (group_scopes ms) Hi) as (y' & Ey' & Sy' & Gy').
  destruct (top_forward E HE N t (fun n => lval (pdf (leaf_of (e_leaf E))) (row (grouped N x) (group_scopes ms) n))) as (y & cs & Ey & Sy & Gy & _).
  { rewrite El. exact St. }
  { intros. apply lval_pos. }
  { rewrite El. cbn [shell lf_C lf_F lf_L lf_R]. intros n c g l r Hn Hc Hg Hl Hr. rewrite Gt by auto. unfold lval, row.
    assert (Tq: touched m ms g = in_ms (group_scopes ms) g) by (destruct ms as [[b s]|]; reflexivity).
    rewrite Tq. destruct (in_ms (group_scopes ms) g); [rewrite ln_1; auto|].
    unfold entry. cbn [grouped shape ix get]. unfold pdf. cbn [shell lf_logp]. rewrite ln_exp.
    rewrite (mk_ext m Hm _ _ (fun j => match entry x n c (g * mv_k m + j) with Some v => v | None => mv_zero m end)).
    - apply isfin_Fin. apply (mk_fin m Hm).
    - intros j Hj. rewrite Gd; auto. rewrite <- EF. nia. }
  exists y, cs, y'. split.
  { unfold mv_einet_forward. cbv zeta. rewrite Ew. rewrite Et. cbn [bind]. rewrite <- Ey. unfold leaf_top. destruct (e_leaf E) as [? ? ?|? ? ? ?|lf0]; try reflexivity. exfalso; eapply Hb; eauto. }
  split; auto. split; auto. split; auto. intros n k Hn Hk. rewrite Gy, Gy' by auto. split; auto.
Qed.

(** Bottom-up networks put the layer under layers for all features. *)
Theorem mv_base_forward lf : e_leaf E = LBase lf -> 1 < mv_k m -> mv_einet_forward E m x ms = Err AssertionError.
Proof.
  intros Hb Hk. pose proof (groups_exact m Hm Hpad) as EF. destruct prepared as (w & d & Ew & Hw & Gd).
  destruct (mv_forward_ok m Hm Hpad N w d ms Hw Hms) as (t & Et & St & Gt).
  unfold mv_einet_forward. cbv zeta. rewrite Ew, Et, Hb. cbn [bind]. unfold tsum, reduce. cbn [shape]. rewrite St. cbn [remove_nth].
  unfold size. cbn [shape nth]. destruct (eqb_list _ _) eqn:Q; [|reflexivity]. apply eqb_list_eq in Q. inversion Q as [Q']. pose proof (mk_F m Hm). nia.
Qed.
End Whole.
End Net.
