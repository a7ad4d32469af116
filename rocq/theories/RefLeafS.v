(** Sampling the leaf layers: which component each feature is drawn from, and the resulting law. *)
From Coq Require Import List Arith Lia Bool Reals Lra Permutation.
Import ListNotations.
From Verif Require Import Base RSum Num Tensor Prob Layers Circuit Net RefFwd RefSample RefLaw Leaf Perm RefLeaf.
Local Open Scope R_scope.
Local Arguments Nat.div : simpl never.
Local Arguments Nat.modulo : simpl never.
Local Arguments Nat.sub : simpl never.
Local Arguments Nat.mul : simpl never.
Local Arguments Nat.add : simpl never.
Local Arguments Nat.min : simpl never.
Local Arguments clamp : simpl never.
Local Arguments bdim : simpl never.

(** [routes k c N C F grp]: from raw draws for every component, [k] keeps for feature [f] of row [n] the
    draw of the component selected for group [grp (rep n) f]. *)
Definition routes {V} (lf : bleaf V) (k : tensor V -> res (tensor V)) (c : sctx) (N : nat) (grp : nat -> nat -> nat) : Prop :=
  forall s, shape s = [N; 1; lf_C lf; lf_F lf; lf_L lf; lf_R lf; 1]%nat ->
  exists t, k s = Ok t /\ shape t = [N; lf_C lf; lf_F lf] /\
  forall n ch f, (n < N)%nat -> (ch < lf_C lf)%nat -> (f < lf_F lf)%nat ->
    get t [n; ch; f] = get s [n; 0; ch; f; get (c_out c) [n; grp (get (c_rep c) [n]) f]; get (c_rep c) [n]; 0]%nat.

Section Route.
Context {V : Type}.
Variable lf : bleaf V.

Lemma view_infer_r {A} N (t : tensor A) : shape t = [N] ->
  exists t', view_infer [] [1; 1; 1; 1; 1]%nat t = Ok t' /\ shape t' = [N; 1; 1; 1; 1; 1]%nat /\
    forall n, (n < N)%nat -> get t' [n; 0; 0; 0; 0; 0]%nat = get t [n].
Proof.
  intros E. unfold view_infer. cbn [numel]. change (1 * (1 * (1 * (1 * (1 * (1 * 1))))) =? 0)%nat with false. cbn iota.
  rewrite E. cbn [numel app].
  replace (N * 1 / (1 * (1 * (1 * (1 * (1 * (1 * 1)))))))%nat with N by (apply Nat.div_unique with (r := 0%nat); [lia|ring]).
  unfold view. rewrite E. cbn [numel].
  destruct (Nat.eqb_spec (N * (1 * (1 * (1 * (1 * (1 * 1)))))) (N * 1)) as [_|Z]; [|lia].
  eexists. split; [reflexivity|]. split; [reflexivity|]. intros n Hn. cbn [get].
  replace (ravel [N; 1; 1; 1; 1; 1]%nat [n; 0; 0; 0; 0; 0]%nat) with (ravel [N] [n]).
  - rewrite unravel_ravel by (simpl; auto). reflexivity.
  - cbn [ravel numel]. lia.
Qed.

Lemma leaf_select_none c N D L Rn (s : tensor V) : cgood c N D L Rn -> L = lf_L lf -> Rn = lf_R lf ->
  shape s = [N; 1; lf_C lf; lf_F lf; lf_L lf; lf_R lf; 1]%nat ->
  exists t, leaf_select s None (c_rep c) = Ok t /\ shape t = [N; lf_C lf; lf_F lf; lf_L lf] /\
  forall n ch f l, (n < N)%nat -> (ch < lf_C lf)%nat -> (f < lf_F lf)%nat -> (l < lf_L lf)%nat ->
    get t [n; ch; f; l] = get s [n; 0; ch; f; l; get (c_rep c) [n]; 0]%nat.
Proof.
  intros (_ & _ & _ & Sr & Gr) -> -> Hs. destruct s as [ss gs], (c_rep c) as [sr gr]. cbn [shape get] in *. subst ss sr.
  unfold leaf_select. change (size (mkT _ gs) 1 =? 1)%nat with true. cbn [assert guard bind].
  rewrite squeeze_1 by reflexivity. cbn [remove_nth]. unfold size at 1 2 3. cbn [shape nth].
  destruct (view_infer_r N (mkT [N] gr) eq_refl) as (r1 & -> & Sr1 & Gr1). cbn [bind get] in *.
  unfold size at 1. rewrite Sr1. cbn [nth].
  rewrite expand_ok by (rewrite Sr1; expands). cbn [bind]. rewrite Sr1.
  assert (GR: forall n a b cc, (n < N)%nat -> get r1 (bproj [N; 1; 1; 1; 1; 1]%nat [n; a; b; cc; 0; 0]%nat) = gr [n]).
  { intros n a b cc Hn. rewrite bproj_same by reflexivity. cbn [bidx]. clamps. auto. }
  rewrite gather_ok.
  2:{ fits. }
  2:{ intros idx Hin. cbn [shape] in Hin. inbs. unfold size; cbn [shape nth get].
      replace x3 with 0%nat by lia. replace x4 with 0%nat by lia. rewrite GR by auto. auto. }
  cbn [bind shape]. rewrite squeeze_1 by reflexivity. cbn [remove_nth bind dim shape length].
  change (5 - 1)%nat with 4%nat. rewrite squeeze_1 by reflexivity. cbn [remove_nth].
  eexists. split; [reflexivity|]. split; [reflexivity|].
  intros n ch f l Hn Hc Hf Hl. cbn [get insert_nth set_nth]. rewrite GR by auto. reflexivity.
Qed.

Lemma view_infer_mid {A} N X (t : tensor A) : (0 < N)%nat -> shape t = [N; X] ->
  exists t', view_infer [N; 1]%nat [1]%nat t = Ok t' /\ shape t' = [N; 1; X; 1]%nat /\
    forall n x, (n < N)%nat -> (x < X)%nat -> get t' [n; 0; x; 0]%nat = get t [n; x].
Proof.
  intros HN E. unfold view_infer. cbn [numel]. destruct (Nat.eqb_spec (N * (1 * 1) * (1 * 1)) 0) as [Z|_]; [lia|].
  rewrite E. cbn [numel app].
  replace (N * (X * 1) / (N * (1 * 1) * (1 * 1)))%nat with X by (apply Nat.div_unique with (r := 0%nat); [lia|ring]).
  unfold view. rewrite E. cbn [numel].
  destruct (Nat.eqb_spec (N * (1 * (X * (1 * 1)))) (N * (X * 1))) as [_|Z]; [|lia].
  eexists. split; [reflexivity|]. split; [reflexivity|]. intros n x Hn Hx. cbn [get].
  replace (ravel [N; 1; X; 1]%nat [n; 0; x; 0]%nat) with (ravel [N; X] [n; x]).
  - rewrite unravel_ravel by (simpl; auto). reflexivity.
  - cbn [ravel numel]. lia.
Qed.

Lemma fact_index_ok Fo sc grp c N t : (0 < N)%nat -> scopes_grp sc (lf_F lf) Fo (lf_R lf) grp ->
  cgood c N Fo (lf_L lf) (lf_R lf) -> shape t = [N; lf_C lf; lf_F lf; lf_L lf] ->
  exists y, fact_index lf Fo sc (c_n c) (c_out c) (c_rep c) t = Ok y /\ shape y = [N; lf_C lf; lf_F lf] /\
  forall n ch f, (n < N)%nat -> (ch < lf_C lf)%nat -> (f < lf_F lf)%nat ->
    get y [n; ch; f] = get t [n; ch; f; get (c_out c) [n; grp (get (c_rep c) [n]) f]].
Proof.
  intros HN (Ssc & Gl & Gsc) (En & So & Go & Sr & Gr) Ht. unfold fact_index. rewrite En, Ht, eqb_list_refl. cbn [assert guard bind].
  destruct t as [st gt], sc as [ssc gsc], (c_out c) as [so go], (c_rep c) as [sr gr]. cbn [shape get] in *. subst.
  unfold index_dim. cbn [shape]. unfold size. cbn [shape nth].
  replace (forallb _ _) with true.
  2:{ symmetry. apply forallb_forall. intros i Hi. apply in_seq0 in Hi. cbn [get]. apply Nat.ltb_lt. auto. }
  cbn [bind set_nth]. set (sel := permute _ _).
  assert (Ssel: shape sel = [c_n c; lf_F lf; Fo]) by reflexivity.
  assert (Gsel: forall n f o, get sel [n; f; o] = gsc [f; o; gr [n]]) by reflexivity.
  clearbody sel. rewrite Ssel. cbn [removelast].
  set (g := mkT [c_n c; lf_F lf] _).
  assert (Gg: forall n f, (n < c_n c)%nat -> (f < lf_F lf)%nat -> get g [n; f] = grp (gr [n]) f).
  { intros n f Hn Hf. unfold g. cbn [get app].
    rewrite (map_ext_in _ (fun o => if Nat.eqb (grp (gr [n]) f) o then o else 0%nat)).
    2:{ intros o Ho. apply in_seq0 in Ho. rewrite Gsel, Gsc by auto. destruct (Nat.eqb _ _); lia. }
    assert (L: (grp (gr [n]) f < Fo)%nat) by auto. revert L. generalize (grp (gr [n]) f). intros k.
    assert (Z: forall m, list_sum (map (fun o => if Nat.eqb k o then o else 0%nat) (seq 0 m)) = if Nat.ltb k m then k else 0%nat).
    { induction m; [reflexivity|]. rewrite seq_S_app, map_app, list_sum_app, IHm. cbn [map list_sum fold_right].
      change (0 + m)%nat with m. unfold list_sum. cbn [fold_right].
      destruct (Nat.ltb_spec k m), (Nat.ltb_spec k (S m)), (Nat.eqb_spec k m); lia. }
    intros L. rewrite Z. destruct (Nat.ltb_spec k Fo); lia. }
  assert (Sg: shape g = [c_n c; lf_F lf]) by reflexivity. clearbody g.
  rewrite gather_ok.
  2:{ rewrite Sg. cbn [gather_fits shape combine forallb length]. rewrite Nat.leb_refl. reflexivity. }
  2:{ intros idx Hin. rewrite Sg in Hin. inbs. rewrite Gg by auto. unfold size; cbn [shape nth]. auto. }
  cbn [bind]. rewrite Sg.
  destruct (view_infer_mid (c_n c) (lf_F lf) (mkT [c_n c; lf_F lf] (fun idx => get (mkT [c_n c; Fo] go) (set_nth 1 (get g idx) idx))) HN eq_refl)
    as (i1 & -> & S1 & G1). cbn [bind]. rewrite S1. cbn [nth].
  rewrite expand_ok by (rewrite S1; expands). cbn [bind]. rewrite S1.
  unfold repeat_t. cbn [shape length Nat.eqb bind map2]. rewrite !Nat.mul_1_l.
  rewrite gather_ok.
  2:{ fits. }
  2:{ intros idx Hin. cbn [shape] in Hin. inbs. cbn [get map2]. rewrite bproj_same by reflexivity. cbn [bidx].
      rewrite !Nat.mod_small by auto. clamps. rewrite G1 by auto. cbn [get set_nth]. rewrite Gg by auto.
      unfold size; cbn [shape nth]. auto. }
  cbn [bind shape]. rewrite squeeze_1 by reflexivity. cbn [remove_nth]. eexists. split; [reflexivity|]. split; [reflexivity|].
  intros n ch f Hn Hc Hf. cbn [get insert_nth map2 set_nth]. rewrite bproj_same by reflexivity. cbn [bidx].
  rewrite !Nat.mod_small by (auto; lia). clamps. rewrite G1 by auto. cbn [get set_nth]. rewrite Gg by auto. reflexivity.
Qed.

Lemma fact_routes Fo sc grp c N : (0 < N)%nat -> scopes_grp sc (lf_F lf) Fo (lf_R lf) grp ->
  cgood c N Fo (lf_L lf) (lf_R lf) ->
  routes lf (fun s => bind (leaf_select s None (c_rep c)) (fact_index lf Fo sc (c_n c) (c_out c) (c_rep c))) c N grp.
Proof.
  intros HN Hsc Hc s Hs. destruct (leaf_select_none c N Fo _ _ s Hc eq_refl eq_refl Hs) as (t & -> & St & Gt). cbn [bind].
  destruct (fact_index_ok Fo sc grp c N t HN Hsc Hc St) as (y & -> & Sy & Gy).
  exists y. split; auto. split; auto. intros n ch f Hn Hch Hf. rewrite Gy by auto.
  destruct Hc as (_ & _ & Go & _ & Gr). destruct Hsc as (_ & Gl & _). apply Gt; auto.
Qed.

(** The group used by the sampling of FactorizedLeafSimple: the position modulo the number of groups. *)
Definition simple_sgrp (F Fo : nat) (pl : list nat) (f : nat) : nat := (nth f (argsort pl) 0 mod Fo)%nat.

Lemma simple_index_ok Fo pl c N Rn t : (0 < Fo)%nat ->
  is_perm pl (lf_F lf + simple_dummy (lf_F lf) Fo) ->
  cgood c N Fo (lf_L lf) Rn -> shape t = [N; lf_C lf; lf_F lf; lf_L lf] ->
  exists y, simple_index lf Fo (vec (argsort pl)) (c_n c) (c_out c) t = Ok y /\ shape y = [N; lf_C lf; lf_F lf] /\
  forall n ch f, (n < N)%nat -> (ch < lf_C lf)%nat -> (f < lf_F lf)%nat ->
    get y [n; ch; f] = get t [n; ch; f; get (c_out c) [n; simple_sgrp (lf_F lf) Fo pl f]].
Proof.
  intros HFo Hp (En & So & Go & _) Ht. unfold simple_index. rewrite En, Ht, eqb_list_refl. cbn [assert guard bind].
  destruct t as [st gt], (c_out c) as [so go]. cbn [shape get] in *. subst.
  set (F := lf_F lf) in *. set (cd := simple_card F Fo). set (dm := simple_dummy F Fo) in *.
  assert (ET: (F + dm = cd * Fo)%nat) by (apply simple_total; auto).
  set (N := c_n c) in *.
  unfold size. cbn [unsqueeze insert_nth shape nth].
  rewrite expand_ok by expands. cbn [bind unsqueeze insert_nth shape nth].
  unfold view. cbn [shape numel].
  destruct (Nat.eqb_spec (N * (lf_C lf * ((F + dm) * 1))) (N * (lf_C lf * (cd * (Fo * 1))))) as [_|Z].
  2:{ exfalso. apply Z. rewrite ET. ring. }
  cbn [bind]. unfold index_dim, vec. cbn [shape]. rewrite argsort_length, (is_perm_length _ _ Hp).
  unfold size. cbn [shape nth].
  pose proof (argsort_perm _ _ Hp) as Hq.
  replace (forallb _ _) with true.
  2:{ symmetry. apply forallb_forall. intros i Hi. apply in_seq0 in Hi. cbn [get hd]. apply Nat.ltb_lt. eapply is_perm_lt; eauto. }
  cbn [bind set_nth].
  set (o2 := mkT [N; lf_C lf; (F + dm)%nat] _).
  assert (G2: forall n ch f, (n < N)%nat -> (ch < lf_C lf)%nat -> (f < F + dm)%nat ->
    get o2 [n; ch; f] = go [n; simple_sgrp F Fo pl f]).
  { intros n ch f Hn Hc Hf. unfold o2. cbn [get set_nth nth hd].
    set (k := nth f (argsort pl) 0%nat).
    assert (Hk: (k < cd * Fo)%nat) by (unfold k; rewrite <- ET; eapply is_perm_lt; eauto).
    assert (Hk1: (k / Fo < cd)%nat) by (apply Nat.div_lt_upper_bound; lia).
    assert (Hk2: (k mod Fo < Fo)%nat) by (apply Nat.mod_upper_bound; lia).
    replace (ravel [N; lf_C lf; (F + dm)%nat] [n; ch; k]) with (ravel [N; lf_C lf; cd; Fo] [n; ch; k / Fo; k mod Fo]%nat).
    2:{ cbn [ravel numel]. rewrite ET. pose proof (Nat.div_mod k Fo). nia. }
    rewrite unravel_ravel by (cbn [inb]; auto). rewrite bproj_same by reflexivity. cbn [bidx remove_nth]. clamps. reflexivity. }
  assert (S2: shape o2 = [N; lf_C lf; (F + dm)%nat]) by reflexivity. clearbody o2.
  set (o3 := if (0 <? dm)%nat then _ else _).
  assert (S3: shape o3 = [N; lf_C lf; F] /\ forall idx, get o3 idx = get o2 idx).
  { unfold o3. destruct (Nat.ltb_spec 0 dm).
    - split; [|reflexivity]. unfold take, size. cbn [shape]. rewrite S2. cbn [nth set_nth].
      replace (Nat.min (F + dm - dm) (F + dm)) with F by lia. reflexivity.
    - split; auto. rewrite S2. replace dm with 0%nat by lia. rewrite Nat.add_0_r. auto. }
  destruct S3 as [S3 G3]. clearbody o3.
  rewrite gather_ok.
  2:{ cbn [unsqueeze shape]. rewrite S3. fits. }
  2:{ intros idx Hin. cbn [unsqueeze shape] in Hin. rewrite S3 in Hin. cbn [insert_nth] in Hin. inbs.
      unfold size; cbn [get unsqueeze remove_nth shape nth]. rewrite G3, G2 by (auto; lia). apply Go; auto.
      unfold simple_sgrp. apply Nat.mod_upper_bound. lia. }
  cbn [bind unsqueeze shape]. rewrite S3. cbn [insert_nth]. rewrite squeeze_1 by reflexivity. cbn [remove_nth].
  eexists. split; [reflexivity|]. split; [reflexivity|].
  intros n ch f Hn Hc Hf. cbn [get insert_nth unsqueeze remove_nth set_nth]. rewrite G3, G2 by (auto; lia). reflexivity.
Qed.

Lemma simple_routes Fo pl c N : (0 < Fo)%nat -> is_perm pl (lf_F lf + simple_dummy (lf_F lf) Fo) ->
  cgood c N Fo (lf_L lf) (lf_R lf) ->
  routes lf (fun s => bind (leaf_select s None (c_rep c)) (simple_index lf Fo (vec (argsort pl)) (c_n c) (c_out c))) c N
    (fun _ => simple_sgrp (lf_F lf) Fo pl).
Proof.
  intros HFo Hp Hc s Hs. destruct (leaf_select_none c N Fo _ _ s Hc eq_refl eq_refl Hs) as (t & -> & St & Gt). cbn [bind].
  destruct (simple_index_ok Fo pl c N _ t HFo Hp Hc St) as (y & -> & Sy & Gy).
  exists y. split; auto. split; auto. intros n ch f Hn Hch Hf. rewrite Gy by auto.
  destruct Hc as (_ & _ & Go & _ & Gr). apply Gt; auto. apply Go; auto. apply Nat.mod_upper_bound. lia.
Qed.

(** A base leaf sampled directly (bottom-up networks). *)
Lemma view_infer_p {A} N F (t : tensor A) : (0 < F)%nat -> shape t = [N; F] ->
  exists t', view_infer [] [1; F; 1; 1]%nat t = Ok t' /\ shape t' = [N; 1; F; 1; 1]%nat /\
    forall n f, (n < N)%nat -> (f < F)%nat -> get t' [n; 0; f; 0; 0]%nat = get t [n; f].
Proof.
  intros HF E. unfold view_infer. cbn [numel]. destruct (Nat.eqb_spec (1 * (1 * (F * (1 * (1 * 1))))) 0) as [Z|_]; [lia|].
  rewrite E. cbn [numel app].
  replace (N * (F * 1) / (1 * (1 * (F * (1 * (1 * 1))))))%nat with N by (apply Nat.div_unique with (r := 0%nat); [lia|ring]).
  unfold view. rewrite E. cbn [numel].
  destruct (Nat.eqb_spec (N * (1 * (F * (1 * (1 * 1))))) (N * (F * 1))) as [_|Z]; [|lia].
  eexists. split; [reflexivity|]. split; [reflexivity|]. intros n f Hn Hf. cbn [get].
  replace (ravel [N; 1; F; 1; 1]%nat [n; 0; f; 0; 0]%nat) with (ravel [N; F] [n; f]).
  - rewrite unravel_ravel by (simpl; auto). reflexivity.
  - cbn [ravel numel]. lia.
Qed.

Lemma direct_routes c N : (0 < lf_F lf)%nat -> cgood c N (lf_F lf) (lf_L lf) (lf_R lf) ->
  routes lf (fun s => leaf_select s (Some (c_out c)) (c_rep c)) c N (fun _ f => f).
Proof.
  intros HF (_ & So & Go & Sr & Gr) s Hs. destruct s as [ss gs], (c_rep c) as [sr gr]. cbn [shape get] in *. subst ss sr.
  unfold leaf_select. change (size (mkT _ gs) 1 =? 1)%nat with true. cbn [assert guard bind].
  rewrite squeeze_1 by reflexivity. cbn [remove_nth]. unfold size at 1 2 3. cbn [shape nth].
  destruct (view_infer_r N (mkT [N] gr) eq_refl) as (r1 & -> & Sr1 & Gr1). cbn [bind get] in *.
  unfold size at 1. rewrite Sr1. cbn [nth].
  rewrite expand_ok by (rewrite Sr1; expands). cbn [bind]. rewrite Sr1.
  assert (GR: forall n a b cc, (n < N)%nat -> get r1 (bproj [N; 1; 1; 1; 1; 1]%nat [n; a; b; cc; 0; 0]%nat) = gr [n]).
  { intros n a b cc Hn. rewrite bproj_same by reflexivity. cbn [bidx]. clamps. auto. }
  rewrite gather_ok.
  2:{ fits. }
  2:{ intros idx Hin. cbn [shape] in Hin. inbs. unfold size; cbn [shape nth get].
      replace x3 with 0%nat by lia. replace x4 with 0%nat by lia. rewrite GR by auto. auto. }
  cbn [bind shape]. rewrite squeeze_1 by reflexivity. cbn [remove_nth].
  unfold size. cbn [shape nth].
  destruct (view_infer_p N (lf_F lf) (c_out c) HF So) as (p1 & -> & S1 & G1). cbn [bind]. rewrite S1. cbn [nth].
  rewrite expand_ok by (rewrite S1; expands). cbn [bind]. rewrite S1.
  rewrite gather_ok.
  2:{ cbn [gather_fits shape combine forallb fst snd length]. rewrite ?Nat.leb_refl. reflexivity. }
  2:{ intros idx Hin. cbn [shape] in Hin. inbs. unfold size; cbn [shape nth get].
      rewrite bproj_same by reflexivity. cbn [bidx]. clamps. rewrite G1 by auto. auto. }
  cbn [bind shape]. rewrite squeeze_1 by reflexivity. cbn [remove_nth bind dim shape length].
  change (4 - 1)%nat with 3%nat. rewrite squeeze_1 by reflexivity. cbn [remove_nth].
  eexists. split; [reflexivity|]. split; [reflexivity|].
  intros n ch f Hn Hc Hf. cbn [get insert_nth set_nth].
  rewrite (bproj_same [N; 1; lf_F lf; 1; 1]%nat) by reflexivity. cbn [bidx]. clamps. rewrite G1 by auto.
  rewrite GR by auto. reflexivity.
Qed.
End Route.

(** * Law of the leaf draws *)
Lemma lprod_all_idx_cons (f : list nat -> R) d s :
  lprod f (all_idx (d :: s)) = rprod d (fun i => lprod (fun idx => f (i :: idx)) (all_idx s)).
Proof. cbn [all_idx]. rewrite lprod_flat_map. unfold rprod. apply lprod_ext. intros i _. apply lprod_map. Qed.

Definition rprod3 (N C F : nat) (g : nat -> nat -> nat -> R) : R :=
  rprod N (fun n => rprod C (fun c => rprod F (fun f => g n c f))).
Lemma rprod3_ext N C F g h : (forall n c f, (n < N)%nat -> (c < C)%nat -> (f < F)%nat -> g n c f = h n c f) ->
  rprod3 N C F g = rprod3 N C F h.
Proof.
  intros H. unfold rprod3. apply rprod_ext. intros n Hn. apply rprod_ext. intros c Hc. apply rprod_ext. intros f Hf. auto.
Qed.

(** Regrouping features by the group they are in. *)
Lemma tprod_gleaf N Fo F C L Rn c grp (q : nat -> leaves) : cgood c N Fo L Rn ->
  (forall r f, (r < Rn)%nat -> (f < F)%nat -> (grp r f < Fo)%nat) ->
  rprod3 N C F (fun n ch f => q n ch f (get (c_out c) [n; grp (get (c_rep c) [n]) f]) (get (c_rep c) [n])) =
  tprod N Fo c (fun n => gleaf F C grp (q n)).
Proof.
  intros (_ & _ & _ & _ & Gr) Hg. unfold rprod3, tprod, gleaf. apply rprod_ext. intros n Hn.
  rewrite rprod_swap. rewrite (rprod_group F Fo (grp (get (c_rep c) [n]))) by auto.
  apply rprod_ext. intros d Hd. apply rprod_ext. intros f Hf. destruct (Nat.eqb_spec (grp (get (c_rep c) [n]) f) d); subst; auto.
Qed.

Section LeafLaw.
Context {V : Type}.
Variable lf : bleaf V.
Variable EL : list nat -> (V -> R) -> R.
Hypothesis HEL : leaf_expectation EL.

Definition leaf_prog (k : tensor V -> res (tensor V)) (N : nat) (mpe : bool) : M V (tensor V) :=
  s <~ leaf_mode_or_draw lf N mpe ;; lift (k s).

Lemma leaf_draw_outcome supp k c N Fo grp r : cgood c N Fo (lf_L lf) (lf_R lf) ->
  (forall r f, (r < lf_R lf)%nat -> (f < lf_F lf)%nat -> (grp r f < Fo)%nat) ->
  routes lf k c N grp -> outcome supp (leaf_prog k N false) r ->
  exists t, r = Ok t /\ shape t = [N; lf_C lf; lf_F lf] /\
    forall n ch f, (n < N)%nat -> (ch < lf_C lf)%nat -> (f < lf_F lf)%nat ->
      supp [ch; f; get (c_out c) [n; grp (get (c_rep c) [n]) f]; get (c_rep c) [n]] (get t [n; ch; f]).
Proof.
  intros (_ & _ & Go & _ & Gr) Hg Hk Ho. unfold leaf_prog, leaf_mode_or_draw in Ho. rewrite mbind_assoc in Ho. cbn [mbind] in Ho.
  apply outcome_bind in Ho as [(e & Ho & ->)|(s & Hs & Ho)].
  - apply outcome_draw_tensor in Ho as [(e' & idx & E & _ & Hd)|(t & E & _)]; [|discriminate].
    inversion Hd as [| | | |key kk v rr Hv Hr]; subst. inversion Hr.
  - apply outcome_draw_tensor in Hs as [(e' & idx & E & _)|(t & E & St & Gt)]; [discriminate|].
    inversion E; subst t.
    destruct (Hk (unsqueeze 6 s)) as (y & Ey & Sy & Gy); [cbn [unsqueeze shape]; rewrite St; reflexivity|].
    rewrite Ey in Ho. cbn [lift] in Ho. apply outcome_ret_inv in Ho. exists y. split; auto. split; auto.
    intros n ch f Hn Hc Hf. rewrite Gy by auto. cbn [unsqueeze get remove_nth].
    assert (A: (get (c_out c) [n; grp (get (c_rep c) [n]) f] < lf_L lf)%nat) by auto.
    assert (B: (get (c_rep c) [n] < lf_R lf)%nat) by auto.
    specialize (Gt [n; 0%nat; ch; f; get (c_out c) [n; grp (get (c_rep c) [n]) f]; get (c_rep c) [n]]).
    cbn [inb skipn] in Gt. specialize (Gt ltac:(repeat split; auto)).
    inversion Gt as [| | | |key kk v rr Hv Hr]; subst. inversion Hr; subst. auto.
Qed.

Theorem leaf_draw_law k c N Fo grp (g : nat -> nat -> nat -> V -> R) : cgood c N Fo (lf_L lf) (lf_R lf) ->
  (forall r f, (r < lf_R lf)%nat -> (f < lf_F lf)%nat -> (grp r f < Fo)%nat) ->
  routes lf k c N grp ->
  expect EL (leaf_prog k N false) (fun t => rprod3 N (lf_C lf) (lf_F lf) (fun n ch f => g n ch f (get t [n; ch; f]))) =
  tprod N Fo c (fun n => gleaf (lf_F lf) (lf_C lf) grp (fun ch f l r => EL [ch; f; l; r] (g n ch f))).
Proof.
  intros Hc Hg Hk. rewrite <- (tprod_gleaf N Fo (lf_F lf) (lf_C lf) (lf_L lf) (lf_R lf) c grp (fun n ch f l r => EL [ch; f; l; r] (g n ch f)) Hc Hg).
  unfold leaf_prog, leaf_mode_or_draw. rewrite mbind_assoc. cbn [mbind]. rewrite expect_bind by auto.
  set (lsel := fun n f => get (c_out c) [n; grp (get (c_rep c) [n]) f]). set (rsel := fun n => get (c_rep c) [n]).
  set (hh := fun idx v => match idx with
     | [n; _; ch; f; l; r] => if Nat.eqb l (lsel n f) && Nat.eqb r (rsel n) then g n ch f v else 1
     | _ => 1 end).
  assert (Hl: forall n f, (n < N)%nat -> (f < lf_F lf)%nat -> (lsel n f < lf_L lf)%nat /\ (rsel n < lf_R lf)%nat).
  { destruct Hc as (_ & _ & Go & _ & Gr). intros n f Hn Hf. unfold lsel, rsel. auto. }
  assert (PP: forall (u : nat -> nat -> nat -> nat -> nat -> R),
     (forall n ch f l r, (n < N)%nat -> (ch < lf_C lf)%nat -> (f < lf_F lf)%nat -> (l < lf_L lf)%nat -> (r < lf_R lf)%nat ->
        l <> lsel n f \/ r <> rsel n -> u n ch f l r = 1) ->
     lprod (fun idx => match idx with [n; _; ch; f; l; r] => u n ch f l r | _ => 1 end)
           (all_idx [N; 1%nat; lf_C lf; lf_F lf; lf_L lf; lf_R lf]) =
     rprod3 N (lf_C lf) (lf_F lf) (fun n ch f => u n ch f (lsel n f) (rsel n))).
  { intros u Hu. rewrite lprod_all_idx_cons. unfold rprod3. apply rprod_ext. intros n Hn.
    rewrite lprod_all_idx_cons, rprod_S, rprod_0, Rmult_1_l. rewrite lprod_all_idx_cons. apply rprod_ext. intros ch Hch.
    rewrite lprod_all_idx_cons. apply rprod_ext. intros f Hf. destruct (Hl n f Hn Hf) as [Hl1 Hr1].
    rewrite lprod_all_idx_cons, (rprod_single _ (lsel n f)); auto.
    - rewrite lprod_all_idx_cons, (rprod_single _ (rsel n)); auto.
      + cbn [all_idx lprod]. ring.
      + intros r Hr Hne. cbn [all_idx lprod]. rewrite Hu; auto. ring.
    - intros l Hll Hne. rewrite lprod_all_idx_cons. transitivity (rprod (lf_R lf) (fun _ => 1)); [|apply rprod_one].
      apply rprod_ext. intros r Hr. cbn [all_idx lprod]. rewrite Hu; auto. ring. }
  transitivity (expect EL (draw_tensor (lf_zero lf) [N; 1%nat; lf_C lf; lf_F lf; lf_L lf; lf_R lf] (fun idx => LeafD (skipn 2 idx) (fun v => Ret v)))
     (fun s => lprod (fun idx => hh idx (get s idx)) (all_idx [N; 1%nat; lf_C lf; lf_F lf; lf_L lf; lf_R lf]))).
  - apply expect_ext_outcome; auto. intros s Hs.
    apply outcome_draw_tensor in Hs as [(e' & idx & E & _)|(t & E & St & _)]; [discriminate|]. inversion E; subst t.
    destruct (Hk (unsqueeze 6 s)) as (y & Ey & Sy & Gy); [cbn [unsqueeze shape]; rewrite St; reflexivity|].
    rewrite Ey. cbn [lift expect].
    transitivity (lprod (fun idx => match idx with [n; _; ch; f; l; r] =>
        if Nat.eqb l (lsel n f) && Nat.eqb r (rsel n) then g n ch f (get s [n; 0%nat; ch; f; l; r]) else 1 | _ => 1 end)
           (all_idx [N; 1%nat; lf_C lf; lf_F lf; lf_L lf; lf_R lf])).
    + rewrite (PP (fun n ch f l r => if Nat.eqb l (lsel n f) && Nat.eqb r (rsel n) then g n ch f (get s [n; 0%nat; ch; f; l; r]) else 1)).
      * apply rprod3_ext. intros n ch f Hn Hch Hf. rewrite !Nat.eqb_refl. cbn [andb]. rewrite Gy by auto. reflexivity.
      * intros. destruct (Nat.eqb_spec l (lsel n f)), (Nat.eqb_spec r (rsel n)); simpl; auto. tauto.
    + apply lprod_ext. intros idx Hin. apply in_all_idx in Hin. inbs. unfold hh. match goal with H : (?z < 1)%nat |- _ => assert (z = 0%nat) by lia; subst z end. reflexivity.
  - rewrite expect_draw_tensor by auto.
    rewrite (lprod_ext _ (fun idx => match idx with [n; _; ch; f; l; r] =>
        if Nat.eqb l (lsel n f) && Nat.eqb r (rsel n) then EL [ch; f; l; r] (g n ch f) else 1 | _ => 1 end)).
    + rewrite (PP (fun n ch f l r => if Nat.eqb l (lsel n f) && Nat.eqb r (rsel n) then EL [ch; f; l; r] (g n ch f) else 1)).
      * apply rprod3_ext. intros n ch f Hn Hch Hf. rewrite !Nat.eqb_refl. reflexivity.
      * intros. destruct (Nat.eqb_spec l (lsel n f)), (Nat.eqb_spec r (rsel n)); simpl; auto. tauto.
    + intros idx Hin. apply in_all_idx in Hin. inbs. unfold hh. cbn [skipn expect].
      destruct (Nat.eqb _ _ && Nat.eqb _ _).
      * reflexivity.
      * apply (EL_one EL HEL).
Qed.

(** Modes instead of draws. *)
Lemma leaf_mode_prog k c N Fo grp md : cgood c N Fo (lf_L lf) (lf_R lf) ->
  (forall r f, (r < lf_R lf)%nat -> (f < lf_F lf)%nat -> (grp r f < Fo)%nat) ->
  routes lf k c N grp -> lf_mode lf = Some md ->
  exists t, leaf_prog k N true = Ret t /\ shape t = [N; lf_C lf; lf_F lf] /\
    forall n ch f, (n < N)%nat -> (ch < lf_C lf)%nat -> (f < lf_F lf)%nat ->
      get t [n; ch; f] = md [ch; f; get (c_out c) [n; grp (get (c_rep c) [n]) f]; get (c_rep c) [n]].
Proof.
  intros (_ & _ & Go & _ & Gr) Hg Hk Hm. unfold leaf_prog, leaf_mode_or_draw. rewrite Hm.
  unfold repeat_t. cbn [shape length Nat.eqb lift mbind map2]. rewrite !Nat.mul_1_r, !Nat.mul_1_l.
  set (s := mkT _ _).
  destruct (Hk (unsqueeze 6 (unsqueeze 1 s))) as (y & Ey & Sy & Gy); [reflexivity|].
  rewrite Ey. cbn [lift]. exists y. split; auto. split; auto. intros n ch f Hn Hc Hf. rewrite Gy by auto.
  cbn [unsqueeze get remove_nth s map2 tl].
  assert (A: (get (c_out c) [n; grp (get (c_rep c) [n]) f] < lf_L lf)%nat) by auto.
  assert (B: (get (c_rep c) [n] < lf_R lf)%nat) by auto.
  rewrite !Nat.mod_small by auto. reflexivity.
Qed.
End LeafLaw.
