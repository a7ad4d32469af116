(** The parameters returned by return_leaf_params=True are those of the components that sampling draws from. *)
From Coq Require Import List Arith Lia Bool Reals Lra Permutation.
Import ListNotations.
From Verif Require Import Base RSum Num Tensor Prob Layers Circuit Net RefFwd RefSample RefLaw Leaf Perm RefLeaf RefLeafS Einet
  RefNet RefEinet RefEinetS RefMpe Diff RefDiff Params.
Local Open Scope R_scope.
Local Arguments Nat.div : simpl never.
Local Arguments Nat.modulo : simpl never.
Local Arguments Nat.sub : simpl never.
Local Arguments Nat.mul : simpl never.
Local Arguments Nat.add : simpl never.
Local Arguments Nat.min : simpl never.
Local Arguments clamp : simpl never.
Local Arguments bdim : simpl never.

(** [proutes k c N grp P]: from the parameters of all components, [k] keeps for feature [f] of row [n] those of the
    component selected for group [grp (rep n) f]. *)
Definition proutes {V} (lf : bleaf V) (k : tensor num -> res (tensor num)) (c : sctx) (N P : nat) (grp : nat -> nat -> nat) : Prop :=
  forall s, shape s = [1; lf_C lf; lf_F lf; lf_L lf; lf_R lf; P]%nat ->
  exists t, k s = Ok t /\ shape t = [N; lf_C lf; lf_F lf; P] /\
  forall n ch f j, (n < N)%nat -> (ch < lf_C lf)%nat -> (f < lf_F lf)%nat -> (j < P)%nat ->
    get t [n; ch; f; j] = get s [0; ch; f; get (c_out c) [n; grp (get (c_rep c) [n]) f]; get (c_rep c) [n]; j]%nat.

Section Route.
Context {V : Type}.
Variable lf : bleaf V.

Lemma view_infer_mid2 {A} N X (t : tensor A) : (0 < N)%nat -> shape t = [N; X] ->
  exists t', view_infer [N; 1]%nat [1; 1]%nat t = Ok t' /\ shape t' = [N; 1; X; 1; 1]%nat /\
    forall n x, (n < N)%nat -> (x < X)%nat -> get t' [n; 0; x; 0; 0]%nat = get t [n; x].
Proof.
  intros HN E. unfold view_infer. cbn [numel]. destruct (Nat.eqb_spec (N * (1 * 1) * (1 * (1 * 1))) 0) as [Z|_]; [lia|].
  rewrite E. cbn [numel app].
  replace (N * (X * 1) / (N * (1 * 1) * (1 * (1 * 1))))%nat with X by (apply Nat.div_unique with (r := 0%nat); [lia|ring]).
  unfold view. rewrite E. cbn [numel].
  destruct (Nat.eqb_spec (N * (1 * (X * (1 * (1 * 1))))) (N * (X * 1))) as [_|Z]; [|lia].
  eexists. split; [reflexivity|]. split; [reflexivity|]. intros n x Hn Hx. cbn [get].
  replace (ravel [N; 1; X; 1; 1]%nat [n; 0; x; 0; 0]%nat) with (ravel [N; X] [n; x]).
  - rewrite unravel_ravel by (simpl; auto). reflexivity.
  - cbn [ravel numel]. lia.
Qed.

Lemma fact_params_ok Fo sc grp c N P : (0 < N)%nat -> scopes_grp sc (lf_F lf) Fo (lf_R lf) grp ->
  cgood c N Fo (lf_L lf) (lf_R lf) ->
  proutes lf (fact_params lf Fo sc (c_n c) (c_out c) (c_rep c)) c N P grp.
Proof.
  intros HN (Ssc & Gl & Gsc) (En & So & Go & Sr & Gr) t Ht. unfold fact_params. rewrite En, Ht. cbn [last].
  destruct t as [st gt], sc as [ssc gsc], (c_out c) as [so go], (c_rep c) as [sr gr]. cbn [shape get] in *. subst.
  set (N := c_n c) in *.
  destruct (view_infer_r N (mkT [N] gr) eq_refl) as (r1 & -> & Sr1 & Gr1). cbn [bind get] in *.
  unfold size. rewrite Sr1. cbn [shape nth].
  rewrite expand_ok by (rewrite Sr1; expands). cbn [bind]. rewrite Sr1.
  assert (GR: forall n a b cc e, (n < N)%nat -> get r1 (bproj [N; 1; 1; 1; 1; 1]%nat [n; a; b; cc; 0; e]%nat) = gr [n]).
  { intros n a b cc e Hn. rewrite bproj_same by reflexivity. cbn [bidx]. clamps. auto. }
  rewrite expand_ok by expands. cbn [bind shape].
  rewrite gather_ok.
  2:{ fits. }
  2:{ intros idx Hin. cbn [shape] in Hin. inbs. unfold size; cbn [shape nth get].
      replace x3 with 0%nat by lia. rewrite GR by auto. auto. }
  cbn [bind shape]. rewrite squeeze_1 by reflexivity. cbn [remove_nth].
  unfold index_dim. cbn [shape]. unfold size. cbn [shape nth].
  replace (forallb _ _) with true.
  2:{ symmetry. apply forallb_forall. intros i Hi. apply in_seq0 in Hi. cbn [get]. apply Nat.ltb_lt. auto. }
  cbn [bind set_nth]. set (sel := permute _ _).
  assert (Ssel: shape sel = [N; lf_F lf; Fo]) by reflexivity.
  assert (Gsel: forall n f o, get sel [n; f; o] = gsc [f; o; gr [n]]) by reflexivity.
  clearbody sel. rewrite Ssel. cbn [removelast].
  set (g := mkT [N; lf_F lf] _).
  assert (Gg: forall n f, (n < N)%nat -> (f < lf_F lf)%nat -> get g [n; f] = grp (gr [n]) f).
  { intros n f Hn Hf. unfold g. cbn [get app].
    rewrite (map_ext_in _ (fun o => if Nat.eqb (grp (gr [n]) f) o then o else 0%nat)).
    2:{ intros o Ho. apply in_seq0 in Ho. rewrite Gsel, Gsc by auto. destruct (Nat.eqb _ _); lia. }
    assert (L: (grp (gr [n]) f < Fo)%nat) by auto. revert L. generalize (grp (gr [n]) f). intros k.
    assert (Z: forall m, list_sum (map (fun o => if Nat.eqb k o then o else 0%nat) (seq 0 m)) = if Nat.ltb k m then k else 0%nat).
    { induction m; [reflexivity|]. rewrite seq_S_app, map_app, list_sum_app, IHm. cbn [map list_sum fold_right].
      change (0 + m)%nat with m. unfold list_sum. cbn [fold_right].
      destruct (Nat.ltb_spec k m), (Nat.ltb_spec k (S m)), (Nat.eqb_spec k m); lia. }
    intros L. rewrite Z. destruct (Nat.ltb_spec k Fo); lia. }
  assert (Sg: shape g = [N; lf_F lf]) by reflexivity. clearbody g.
  rewrite gather_ok.
  2:{ rewrite Sg. cbn [gather_fits shape combine forallb length]. rewrite Nat.leb_refl. reflexivity. }
  2:{ intros idx Hin. rewrite Sg in Hin. inbs. rewrite Gg by auto. unfold size; cbn [shape nth]. auto. }
  cbn [bind]. rewrite Sg.
  destruct (view_infer_mid2 N (lf_F lf) (mkT [N; lf_F lf] (fun idx => get (mkT [N; Fo] go) (set_nth 1 (get g idx) idx))) HN eq_refl)
    as (i1 & -> & S1 & G1). cbn [bind]. rewrite S1. cbn [nth].
  rewrite expand_ok by (rewrite S1; expands). cbn [bind]. rewrite S1.
  unfold repeat_t. cbn [shape length Nat.eqb bind map2]. rewrite !Nat.mul_1_l.
  assert (GI: forall n ch f j, (n < N)%nat -> (ch < lf_C lf)%nat -> (f < lf_F lf)%nat -> (j < P)%nat ->
    get i1 (bproj [N; 1; lf_F lf; 1; 1]%nat [n mod N; ch mod lf_C lf; f mod lf_F lf; 0 mod 1; j mod P]%nat) = go [n; grp (gr [n]) f]).
  { intros n ch f j Hn Hc Hf Hj. rewrite bproj_same by reflexivity. cbn [bidx]. rewrite !Nat.mod_small by (auto; lia).
    clamps. rewrite G1 by auto. cbn [get set_nth]. rewrite Gg by auto. reflexivity. }
  rewrite gather_ok.
  2:{ fits. }
  2:{ intros idx Hin. cbn [shape] in Hin. inbs. cbn [get map2]. replace x2 with 0%nat by lia. rewrite GI by auto.
      unfold size; cbn [shape nth]. auto. }
  cbn [bind shape]. rewrite squeeze_1 by reflexivity. cbn [remove_nth shape]. rewrite eqb_list_refl. cbn [assert guard bind].
  eexists. split; [reflexivity|]. split; [reflexivity|].
  intros n ch f j Hn Hc Hf Hj. cbn [get insert_nth map2 set_nth]. rewrite GI by auto. rewrite GR by auto.
  rewrite bproj_same by reflexivity. cbn [bidx]. clamps.
  rewrite !clamp_lt by auto. reflexivity.
Qed.

Lemma simple_params_ok Fo pl c N P : (0 < Fo)%nat -> lf_R lf = 1%nat ->
  is_perm pl (lf_F lf + simple_dummy (lf_F lf) Fo) ->
  cgood c N Fo (lf_L lf) (lf_R lf) ->
  proutes lf (simple_params lf Fo (vec (argsort pl)) (c_n c) (c_out c)) c N P (fun _ => simple_sgrp (lf_F lf) Fo pl).
Proof.
  intros HFo HR1 Hp (En & So & Go & Sr & Gr) t Ht. unfold simple_params. rewrite En. rewrite Ht. cbn [last].
  destruct t as [st gt], (c_out c) as [so go]. cbn [shape get] in *. subst. rewrite HR1 in *.
  set (F := lf_F lf) in *. set (cd := simple_card F Fo). set (dm := simple_dummy F Fo) in *.
  assert (ET: (F + dm = cd * Fo)%nat) by (apply simple_total; auto).
  set (N := c_n c) in *.
  unfold size. cbn [unsqueeze insert_nth shape nth].
  rewrite expand_ok by expands. cbn [bind unsqueeze insert_nth shape nth].
  unfold view. cbn [shape numel].
  destruct (Nat.eqb_spec (N * (lf_C lf * ((F + dm) * 1))) (N * (lf_C lf * (cd * (Fo * 1))))) as [_|Z].
  2:{ exfalso. apply Z. rewrite ET. ring. }
  cbn [bind]. unfold index_dim, vec. cbn [shape]. rewrite argsort_length, (is_perm_length _ _ Hp).
  unfold size. cbn [shape nth].
  pose proof (argsort_perm _ _ Hp) as Hq.
  replace (forallb _ _) with true.
  2:{ symmetry. apply forallb_forall. intros i Hi. apply in_seq0 in Hi. cbn [get hd]. apply Nat.ltb_lt. eapply is_perm_lt; eauto. }
  cbn [bind set_nth].
  set (o2 := mkT [N; lf_C lf; (F + dm)%nat] _).
  assert (G2: forall n ch f, (n < N)%nat -> (ch < lf_C lf)%nat -> (f < F + dm)%nat ->
    get o2 [n; ch; f] = go [n; simple_sgrp F Fo pl f]).
  { intros n ch f Hn Hc Hf. unfold o2. cbn [get set_nth nth hd].
    set (k := nth f (argsort pl) 0%nat).
    assert (Hk: (k < cd * Fo)%nat) by (unfold k; rewrite <- ET; eapply is_perm_lt; eauto).
    assert (Hk1: (k / Fo < cd)%nat) by (apply Nat.div_lt_upper_bound; lia).
    assert (Hk2: (k mod Fo < Fo)%nat) by (apply Nat.mod_upper_bound; lia).
    replace (ravel [N; lf_C lf; (F + dm)%nat] [n; ch; k]) with (ravel [N; lf_C lf; cd; Fo] [n; ch; k / Fo; k mod Fo]%nat).
    2:{ cbn [ravel numel]. rewrite ET. pose proof (Nat.div_mod k Fo). nia. }
    rewrite unravel_ravel by (cbn [inb]; auto). rewrite bproj_same by reflexivity. cbn [bidx remove_nth]. clamps. reflexivity. }
  assert (S2: shape o2 = [N; lf_C lf; (F + dm)%nat]) by reflexivity. clearbody o2.
  set (o3 := if (0 <? dm)%nat then _ else _).
  assert (S3: shape o3 = [N; lf_C lf; F] /\ forall idx, get o3 idx = get o2 idx).
  { unfold o3. destruct (Nat.ltb_spec 0 dm).
    - split; [|reflexivity]. unfold take, size. cbn [shape]. rewrite S2. cbn [nth set_nth].
      replace (Nat.min (F + dm - dm) (F + dm)) with F by lia. reflexivity.
    - split; auto. rewrite S2. replace dm with 0%nat by lia. rewrite Nat.add_0_r. auto. }
  destruct S3 as [S3 G3]. clearbody o3.
  cbn [unsqueeze shape]. rewrite S3. cbn [insert_nth nth].
  rewrite expand_ok by (cbn [unsqueeze shape]; rewrite S3; cbn [insert_nth]; expands). cbn [bind unsqueeze shape]. rewrite S3. cbn [insert_nth].
  rewrite squeeze_1 by reflexivity. cbn [remove_nth shape nth].
  rewrite expand_ok by expands. cbn [bind shape].
  assert (GI: forall n ch f j, (n < N)%nat -> (ch < lf_C lf)%nat -> (f < F)%nat ->
     get o3 (remove_nth 3 (remove_nth 4 (bproj [N; lf_C lf; F; 1; 1]%nat [n; ch; f; 0%nat; j]))) = go [n; simple_sgrp F Fo pl f]).
  { intros n ch f j Hn Hc Hf. rewrite bproj_same by reflexivity. cbn [bidx]. clamps. cbn [remove_nth].
    rewrite G3, G2 by (auto; lia). reflexivity. }
  rewrite gather_ok.
  2:{ fits. }
  2:{ intros idx Hin. cbn [shape] in Hin. inbs. unfold size; cbn [get unsqueeze shape nth].
      replace x2 with 0%nat by lia. rewrite GI by auto. apply Go; auto.
      unfold simple_sgrp. apply Nat.mod_upper_bound. lia. }
  cbn [bind shape]. rewrite squeeze_1 by reflexivity. cbn [remove_nth shape]. rewrite eqb_list_refl. cbn [assert guard bind].
  eexists. split; [reflexivity|]. split; [reflexivity|].
  intros n ch f j Hn Hc Hf Hj. cbn [get insert_nth unsqueeze set_nth]. rewrite GI by auto.
  assert (Ho: (go [n; simple_sgrp F Fo pl f] < lf_L lf)%nat) by (apply Go; auto; unfold simple_sgrp; apply Nat.mod_upper_bound; lia).
  rewrite bproj_same by reflexivity. cbn [bidx]. clamps.
  assert (R0: get (c_rep c) [n] = 0%nat) by (specialize (Gr n Hn); lia). rewrite R0.
  reflexivity.
Qed.
End Route.

Section Net.
Context {V : Type}.
Variable E : einet V.
Hypothesis HE : einet_ok E.
Let lf := leaf_of (e_leaf E).

(** The calls for which the walk is known to reach good indices. *)
Definition ready (a : sargs (V := V)) (cs : caches) : Prop :=
  check_args E a = Ok tt /\ ev_caches E a = Ok cs /\ (0 < num_samples a)%nat /\
  (forall supp r, outcome supp (walk E a cs) r -> exists c, r = Ok c /\ cgood c (num_samples a) (leaf_out E) (e_L E) (e_R E)) /\
  match a_ev a with None => True | Some e => input_ok E (num_samples a) e (a_ms a) end.

Lemma ready_free a : check_args E a = Ok tt -> class_ok E a -> a_ev a = None -> (0 < num_samples a)%nat -> a_tsum a <> 0 ->
  ready a (no_caches E).
Proof.
  intros Hch Hcl Hev HN HT. split; auto. split; [unfold ev_caches; rewrite Hev; auto|]. split; auto. rewrite Hev. split; auto.
  apply (walk_out E HE a (no_caches E) vone 1 Hcl HN HT (no_caches_ok E HE _ _)).
  intros n Hn d s r _ _ _. unfold vone. lra.
Qed.
Lemma ready_evidence a e : a_ev a = Some e -> check_args E a = Ok tt -> input_ok E (num_samples a) e (a_ms a) ->
  (0 < num_samples a)%nat -> a_tsum a <> 0 -> exists cs, ready a cs.
Proof.
  intros Hev Hch Hin HN HT.
  assert (Hcl: class_ok E a).
  { unfold class_ok. unfold check_args in Hch. rewrite Hev in Hch. destruct (a_class a); auto; discriminate. }
  destruct (forward_full_rep E HE _ e (a_ms a) Hin) as (y & cs & Ey & _ & _ & v & Hv & Hc1 & Hc2). fold lf in Hv.
  exists cs. split; auto. split; [unfold ev_caches; rewrite Hev, Ey; auto|]. split; auto. rewrite Hev. split; auto.
  apply (walk_out E HE a cs v 1 Hcl HN HT).
  - split; auto. intros HR m Em. eexists. split; [apply Hc2; auto|]. reflexivity.
  - intros n Hn d s r Hd Hs Hr. rewrite Hv by auto. apply (leafval_pos (fnet E)); auto. intros. apply lval_pos.
Qed.

(** Below the walk: the parameters are looked up where the samples are. *)
Definition pbottom (gp : res (tensor num)) (c : sctx) : res (tensor num) :=
  c <- unpermute E c ;; leaf_params (e_leaf E) c gp.
Lemma pbottom_routes c N P : e_perm E = None -> (0 < N)%nat -> cgood c N (leaf_out E) (e_L E) (e_R E) ->
  proutes lf (fun s => pbottom (Ok s) c) c N P (sgrp E).
Proof.
  intros Hpm HN Hc. pose proof (eo_ll E HE) as H. unfold pbottom, leaf_layer_ok, leaf_out, unpermute, sgrp in *. rewrite Hpm in *.
  pose proof (eo_lC E HE) as EC. pose proof (eo_lF E HE) as EF.
  pose proof (eo_lL E HE) as EL'. pose proof (eo_lR E HE) as ER. fold lf in EC, EF, EL', ER.
  assert (ELF: leaf_of (e_leaf E) = lf) by reflexivity. clearbody lf.
  destruct (e_leaf E) as [lf' Fo sc|lf' Fo pl pinv|lf']; cbn [leaf_of] in ELF; subst lf'; try tauto; cbn [bind leaf_params].
  - rewrite <- EF, <- ER in H. rewrite <- EL', <- ER in Hc. apply (fact_params_ok lf Fo sc _ c N P HN H Hc).
  - destruct H as (HR & HFo & Hp & ->). rewrite <- EF in Hp. rewrite <- EL', <- ER in Hc. rewrite <- EF.
    apply (simple_params_ok lf Fo pl c N P HFo); auto. congruence.
Qed.

Lemma sample_params_core a cs gp : ready a cs -> sample_params E gp a = (c <~ walk E a cs ;; lift (pbottom gp c)).
Proof.
  intros (H1 & H2 & _). unfold sample_params, sample_ctx, walk, pbottom. rewrite H1, H2. cbn [lift mbind].
  rewrite !mbind_assoc. apply mbind_ext. intros x. rewrite !mbind_assoc. apply mbind_ext. intros c. rewrite !mbind_assoc.
  apply mbind_ext. intros c'. destruct (unpermute E c'); reflexivity.
Qed.

(** Every mode: the call succeeds, each entry belongs to a component. *)
Theorem params_out a cs par P : ready a cs -> e_perm E = None -> shape par = [1%nat; e_C E; e_F E; e_L E; e_R E; P] ->
  let N := num_samples a in
  forall supp r, outcome supp (sample_params E (Ok par) a) r -> exists t, r = Ok t /\ shape t = [N; e_C E; e_F E; P] /\
     forall n c f, (n < N)%nat -> (c < e_C E)%nat -> (f < e_F E)%nat ->
       exists l r, (l < e_L E)%nat /\ (r < e_R E)%nat /\ forall j, (j < P)%nat -> get t [n; c; f; j] = get par [0%nat; c; f; l; r; j].
Proof.
  intros Hr Hpm Sp N supp r Ho. rewrite (sample_params_core a cs _ Hr) in Ho. destruct Hr as (_ & _ & HN & OW & _). fold N in HN, OW.
  pose proof (eo_lC E HE) as EC. pose proof (eo_lF E HE) as EF.
  pose proof (eo_lL E HE) as EL'. pose proof (eo_lR E HE) as ER. fold lf in EC, EF, EL', ER.
  apply outcome_bind in Ho as [(e & Ho & _)|(c & Ho & Hr)].
  { destruct (OW _ _ Ho) as (c' & Z & _). discriminate. }
  destruct (OW _ _ Ho) as (c' & Z & Gc). inversion Z; subst c'.
  destruct (pbottom_routes c N P Hpm HN Gc par) as (t & Et & St & Gt); [rewrite EC, EF, EL', ER; exact Sp|].
  rewrite Et in Hr. apply outcome_ret_inv in Hr. exists t. split; auto. rewrite EC, EF in St, Gt. split; auto.
  intros n ch f Hn Hch Hf. pose proof Gc as (_ & _ & Go & _ & Gr).
  exists (get (c_out c) [n; sgrp E (get (c_rep c) [n]) f]), (get (c_rep c) [n]). split; [|split; auto].
  apply Go; auto. apply sgrp_lt; auto.
Qed.

Variable EL : list nat -> (V -> R) -> R.
Hypothesis HEL : leaf_expectation EL.

(** What becomes of the value at (n, c, f): the evidence is kept. *)
Definition kept (a : sargs (V := V)) (n c f : nat) : option V :=
  match a_ev a with None => None | Some e => row e (a_ms a) n c f end.
Lemma finish_entry a cs t : ready a cs -> shape t = [num_samples a; e_C E; e_F E] ->
  exists o, finish a t = Ret o /\ forall n c f, (n < num_samples a)%nat -> (c < e_C E)%nat -> (f < e_F E)%nat ->
     entry o n c f = match kept a n c f with Some v => Some v | None => Some (get t [n; c; f]) end.
Proof.
  intros (_ & _ & _ & _ & H) St. unfold finish, kept. destruct (a_ev a) as [e|].
  - destruct (merge_ok E _ e (a_ms a) t H St) as (o & -> & _ & Go). exists o. split; auto.
  - eexists. split; [reflexivity|]. intros n c f Hn Hc Hf. unfold entry. cbn [tmap shape get]. rewrite St. reflexivity.
Qed.

(** [D c f p]: the distribution of a leaf with parameters [p]; [Mo c f p]: its mode. *)
Theorem params_law a cs par P (D : nat -> nat -> (nat -> num) -> (V -> R) -> R) :
  ready a cs -> e_perm E = None -> lf_ctx lf = true -> a_mpe a = false -> a_mpel a = false ->
  shape par = [1%nat; e_C E; e_F E; e_L E; e_R E; P] ->
  (forall c f l r p h, (c < e_C E)%nat -> (f < e_F E)%nat -> (l < e_L E)%nat -> (r < e_R E)%nat ->
     (forall j, (j < P)%nat -> p j = get par [0%nat; c; f; l; r; j]) -> D c f p h = EL [c; f; l; r] h) ->
  let N := num_samples a in forall g : nat -> nat -> nat -> option V -> R,
  expect EL (sample E a) (fun o => rprod3 N (e_C E) (e_F E) (fun n c f => g n c f (entry o n c f))) =
  expect EL (sample_params E (Ok par) a) (fun t => rprod3 N (e_C E) (e_F E) (fun n c f =>
     match kept a n c f with
     | Some v => g n c f (Some v)
     | None => D c f (fun j => get t [n; c; f; j]) (fun v => g n c f (Some v))
     end)).
Proof.
  intros Hr Hpm Hctx Hm Hml Sp HD N g. rewrite (sample_params_core a cs _ Hr). pose proof Hr as (Hch & Ec & HN & OW & _). fold N in HN, OW.
  pose proof (eo_lC E HE) as EC. pose proof (eo_lF E HE) as EF.
  pose proof (eo_lL E HE) as EL'. pose proof (eo_lR E HE) as ER. fold lf in EC, EF, EL', ER.
  assert (HG: forall r f, (r < lf_R lf)%nat -> (f < lf_F lf)%nat -> (sgrp E r f < leaf_out E)%nat).
  { rewrite EF, ER. intros. apply sgrp_lt; auto. }
  rewrite (sample_core E a _ Hch Ec). unfold core. rewrite mbind_assoc, !expect_bind by auto.
  apply (expect_ext_outcome EL HEL). intros c Ho. destruct (OW _ _ Ho) as (c' & Z & Gc). inversion Z; subst c'.
  destruct (pbottom_routes c N P Hpm HN Gc par) as (t & Et & St & Gt); [rewrite EC, EF, EL', ER; exact Sp|].
  rewrite Et. cbn [lift expect].
  destruct (bottom_routes E HE c N Hctx HN Gc) as (k & Hk & Eb). fold lf in Hk, Eb. rewrite Eb, Hm, Hml. cbn [orb].
  rewrite expect_bind by auto. rewrite <- EL', <- ER in Gc.
  set (g' := fun n c f w => g n c f (match kept a n c f with Some v => Some v | None => Some w end)).
  rewrite (expect_ext_outcome EL HEL _ _ (fun t => rprod3 N (lf_C lf) (lf_F lf) (fun n c f => g' n c f (get t [n; c; f])))).
  - rewrite (leaf_draw_law lf EL HEL k c N (leaf_out E) (sgrp E) g' Gc HG Hk).
    rewrite <- (tprod_gleaf N (leaf_out E) (lf_F lf) (lf_C lf) (lf_L lf) (lf_R lf) c (sgrp E)
                (fun n ch f l r => EL [ch; f; l; r] (g' n ch f)) Gc HG).
    rewrite EC, EF in *. apply rprod3_ext. intros n ch f Hn Hch' Hf. destruct Gc as (_ & _ & Go & _ & Gr). rewrite EL', ER in *.
    assert (Hrr: (get (c_rep c) [n] < e_R E)%nat) by auto.
    assert (Hl: (get (c_out c) [n; sgrp E (get (c_rep c) [n]) f] < e_L E)%nat) by (apply Go; auto).
    unfold g'. destruct (kept a n ch f) as [v|].
    + set (x := g n ch f (Some v)). transitivity (EL [ch; f; get (c_out c) [n; sgrp E (get (c_rep c) [n]) f]; get (c_rep c) [n]] (fun _ => x * 1)).
      { apply (EL_ext EL HEL). intros w. ring. }
      rewrite (EL_scal EL HEL), (EL_one EL HEL). ring.
    + symmetry. apply HD; auto.
  - intros s Hs. destruct (leaf_draw_outcome lf _ k c N (leaf_out E) (sgrp E) _ Gc HG Hk Hs) as (s' & Z' & Ss & _). inversion Z'; subst s'.
    rewrite EC, EF in *. destruct (finish_entry a cs s Hr Ss) as (o & -> & Go). cbn [expect].
    apply rprod3_ext. intros n ch f Hn Hch' Hf. rewrite Go by auto. reflexivity.
Qed.

Theorem params_mode a cs par P md (Mo : nat -> nat -> (nat -> num) -> V) :
  ready a cs -> e_perm E = None -> lf_ctx lf = true -> lf_mode lf = Some md -> a_mpe a || a_mpel a = true ->
  shape par = [1%nat; e_C E; e_F E; e_L E; e_R E; P] ->
  (forall c f l r p, (c < e_C E)%nat -> (f < e_F E)%nat -> (l < e_L E)%nat -> (r < e_R E)%nat ->
     (forall j, (j < P)%nat -> p j = get par [0%nat; c; f; l; r; j]) -> Mo c f p = md [c; f; l; r]) ->
  let N := num_samples a in forall g : nat -> nat -> nat -> option V -> R,
  expect EL (sample E a) (fun o => rprod3 N (e_C E) (e_F E) (fun n c f => g n c f (entry o n c f))) =
  expect EL (sample_params E (Ok par) a) (fun t => rprod3 N (e_C E) (e_F E) (fun n c f =>
     g n c f (match kept a n c f with Some v => Some v | None => Some (Mo c f (fun j => get t [n; c; f; j])) end))).
Proof.
  intros Hr Hpm Hctx Hmd Hm Sp HD N g. rewrite (sample_params_core a cs _ Hr). pose proof Hr as (Hch & Ec & HN & OW & _). fold N in HN, OW.
  pose proof (eo_lC E HE) as EC. pose proof (eo_lF E HE) as EF.
  pose proof (eo_lL E HE) as EL'. pose proof (eo_lR E HE) as ER. fold lf in EC, EF, EL', ER.
  assert (HG: forall r f, (r < lf_R lf)%nat -> (f < lf_F lf)%nat -> (sgrp E r f < leaf_out E)%nat).
  { rewrite EF, ER. intros. apply sgrp_lt; auto. }
  rewrite (sample_core E a _ Hch Ec). unfold core. rewrite mbind_assoc, !expect_bind by auto.
  apply (expect_ext_outcome EL HEL). intros c Ho. destruct (OW _ _ Ho) as (c' & Z & Gc). inversion Z; subst c'.
  destruct (pbottom_routes c N P Hpm HN Gc par) as (t & Et & St & Gt); [rewrite EC, EF, EL', ER; exact Sp|].
  rewrite Et. cbn [lift expect].
  destruct (bottom_routes E HE c N Hctx HN Gc) as (k & Hk & Eb). fold lf in Hk, Eb. rewrite Eb, Hm.
  rewrite <- EL', <- ER in Gc.
  destruct (leaf_mode_prog lf k c N (leaf_out E) (sgrp E) md Gc HG Hk Hmd) as (s & Es & Ss & Gs). rewrite Es. cbn [mbind].
  rewrite EC, EF in *. destruct (finish_entry a cs s Hr Ss) as (o & -> & Go). cbn [expect].
  apply rprod3_ext. intros n ch f Hn Hch' Hf. rewrite Go by auto. destruct Gc as (_ & _ & Gout & _ & Gr). rewrite EL', ER in *.
  destruct (kept a n ch f) as [v|]; auto. rewrite Gs by auto. do 2 f_equal. symmetry. apply HD; auto.
Qed.

(** Bottom-up networks: no parameters, whatever the leaf class. *)
Theorem params_base a cs gp lf' : ready a cs -> e_leaf E = LBase lf' ->
  forall supp r, outcome supp (sample_params E gp a) r -> exists x, r = Err x.
Proof.
  intros Hr El supp r Ho. rewrite (sample_params_core a cs _ Hr) in Ho.
  apply outcome_bind in Ho as [(e & Ho & ->)|(c & Ho & Hx)]; [eauto|].
  assert (X: exists x, pbottom gp c = Err x).
  { unfold pbottom. rewrite El. cbn [leaf_params]. unfold base_params. destruct (unpermute E c); cbn [bind]; [|eauto].
    unfold guard. destruct (lf_ctx lf'); cbn [bind]; eauto. }
  destruct X as (x & X). rewrite X in Hx. cbn [lift] in Hx. inversion Hx; subst. eauto.
Qed.
End Net.

(** * is_differentiable=True *)
Section Diff.
Context {V : Type}.
Variable lf : bleaf V.

(** One-hot indices with finite parameters: the same result as with indices. *)
Theorem dfact_params_ok Fo sc grp cd c N P : (0 < N)%nat -> scopes_grp sc (lf_F lf) Fo (lf_R lf) grp ->
  ohctx cd c N Fo (lf_L lf) (lf_R lf) ->
  forall s, shape s = [1; lf_C lf; lf_F lf; lf_L lf; lf_R lf; P]%nat -> (forall idx, isfin (get s idx) = true) ->
  exists t, dfact_params lf sc (d_n cd) (lf_R lf) (d_out cd) (d_rep cd) s = Ok t /\ shape t = [N; lf_C lf; lf_F lf; P] /\
  forall n ch f j, (n < N)%nat -> (ch < lf_C lf)%nat -> (f < lf_F lf)%nat -> (j < P)%nat ->
    get t [n; ch; f; j] = get s [0; ch; f; get (c_out c) [n; grp (get (c_rep c) [n]) f]; get (c_rep c) [n]; j]%nat.
Proof.
  intros HN (Ssc & Gl & Gsc) ((En & Soc & Goc & Src & Grc) & Hn & (So & Go) & Hrep & _ & _) s Hs Hfin.
  unfold dfact_params. rewrite Hn, Hs. cbn [last].
  assert (V6: exists r', view [N; 1; 1; 1; lf_R lf; 1]%nat (d_rep cd) = Ok r' /\ shape r' = [N; 1; 1; 1; lf_R lf; 1]%nat /\
    forall n r, (n < N)%nat -> (r < lf_R lf)%nat -> get r' [n; 0; 0; 0; r; 0]%nat = hot r (get (c_rep c) [n])).
  { destruct Hrep as [Sr Gr]. unfold view. rewrite Sr. cbn [numel]. rewrite !Nat.mul_1_l, !Nat.mul_1_r, Nat.eqb_refl.
    eexists. split; [reflexivity|]. split; [reflexivity|]. intros n r Hn' Hr. cbn [get].
    replace (ravel [N; 1; 1; 1; lf_R lf; 1]%nat [n; 0; 0; 0; r; 0]%nat) with (ravel [N; lf_R lf] [n; r]) by (cbn [ravel numel]; lia).
    rewrite unravel_ravel by (simpl; auto). auto. }
  destruct V6 as (r6 & -> & S6 & G6). cbn [bind].
  destruct (view_infer_4 _ N _ _ HN Hrep) as (r' & Er & Sr & Gr).
  destruct s as [ss gs], r6 as [s6 g6], sc as [ssc gsc], (d_out cd) as [so go], r' as [sr gr].
  cbn [shape get] in *. subst ss s6 ssc so sr. ioh. rewrite Er. cbn [bind].
  unfold tmap, unsqueeze. cbn [shape insert_nth get]. ioh. ioh.
  set (o := mkT _ _).
  assert (So: shape o = [N; lf_F lf; lf_L lf]) by reflexivity.
  assert (Go': forall n f l, (n < N)%nat -> (f < lf_F lf)%nat -> (l < lf_L lf)%nat ->
    get o [n; f; l] = hot l (get (c_out c) [n; grp (get (c_rep c) [n]) f])).
  { intros n f l Hn' Hf Hl'. unfold o. pose proof (Grc n Hn') as Hr. assert (Hg: (grp (get (c_rep c) [n]) f < Fo)%nat) by auto.
    unfold size. cbn [get shape nth insert_nth].
    rewrite (nsum_ext _ _ (fun o => nmul (hot l (get (c_out c) [n; o])) (hot o (grp (get (c_rep c) [n]) f)))).
    { apply (nsum_hot Fo (fun o => hot l (get (c_out c) [n; o]))); auto. }
    intros o' Ho. gets. rewrite Go by auto. f_equal.
    rewrite (nsum_ext _ _ (fun r => nmul (Fin (INR (gsc [f; o'; r]))) (hot r (get (c_rep c) [n])))).
    { rewrite (nsum_hot (lf_R lf) (fun r => Fin (INR (gsc [f; o'; r])))); auto.
      rewrite Gsc by auto. unfold hot. rewrite Nat.eqb_sym. destruct (o' =? _); reflexivity. }
    intros r Hr'. gets. rewrite Gr by auto. reflexivity. }
  clearbody o. unfold view. rewrite So. cbn [numel]. rewrite !Nat.mul_1_l, !Nat.mul_1_r, Nat.eqb_refl. cbn [bind].
  ioh. cbn [shape]. rewrite eqb_list_refl. cbn [assert guard bind].
  eexists. split; [reflexivity|]. split; [reflexivity|]. intros n ch f j Hn' Hc Hf Hj.
  pose proof (Grc n Hn') as Hr. assert (Hg: (grp (get (c_rep c) [n]) f < Fo)%nat) by auto. pose proof (Goc n _ Hn' Hg) as Hl.
  unfold size. cbn [get shape nth insert_nth].
  rewrite (nsum_ext _ _ (fun l => nmul (gs [0%nat; ch; f; l; get (c_rep c) [n]; j]) (hot l (get (c_out c) [n; grp (get (c_rep c) [n]) f])))).
  { apply (nsum_hot (lf_L lf) (fun l => gs [0%nat; ch; f; l; get (c_rep c) [n]; j])); auto. }
  intros l Hl'. gets. f_equal.
  - rewrite (nsum_ext _ _ (fun r => nmul (gs [0%nat; ch; f; l; r; j]) (hot r (get (c_rep c) [n])))).
    { apply (nsum_hot (lf_R lf) (fun r => gs [0%nat; ch; f; l; r; j])); auto. }
    intros r Hr'. gets. rewrite G6 by auto. reflexivity.
  - rewrite <- Go' by auto. f_equal.
    replace (ravel [N; 1%nat; lf_F lf; lf_L lf; 1%nat] [n; 0%nat; f; l; 0%nat]) with (ravel [N; lf_F lf; lf_L lf] [n; f; l])
      by (cbn [ravel numel]; lia).
    apply unravel_ravel. simpl; auto.
Qed.

(** The single-repetition leaf: the one-hot branch fails for more than one leaf component per feature. *)
Theorem dsimple_params_raises Fo pl N (out s : tensor num) P : lf_L lf <> 1%nat ->
  shape s = [1; lf_C lf; lf_F lf; lf_L lf; 1; P]%nat ->
  shape out = [N; Fo; lf_L lf] -> (0 < Fo)%nat -> is_perm pl (lf_F lf + simple_dummy (lf_F lf) Fo) ->
  dsimple_params lf Fo (vec (argsort pl)) N out s = Err AssertionError.
Proof.
  intros HL Hs Ho HFo Hp. unfold dsimple_params. destruct out as [so go]. cbn [shape] in Ho. subst so.
  set (F := lf_F lf) in *. set (cd := simple_card F Fo). set (dm := simple_dummy F Fo) in *.
  assert (ET: (F + dm = cd * Fo)%nat) by (apply simple_total; auto).
  unfold size at 1 2 3. cbn [unsqueeze insert_nth shape nth]. rewrite expand_ok by expands. cbn [bind unsqueeze insert_nth shape].
  unfold size at 1 2. cbn [shape nth]. unfold view. cbn [shape numel].
  destruct (Nat.eqb_spec (N * ((F + dm) * (lf_L lf * 1))) (N * (cd * (Fo * (lf_L lf * 1))))) as [_|Z]; [|exfalso; apply Z; rewrite ET; ring].
  cbn [bind]. unfold index_dim, vec. cbn [shape]. rewrite argsort_length, (is_perm_length _ _ Hp). unfold size at 1. cbn [shape nth].
  pose proof (argsort_perm _ _ Hp) as Hq. replace (forallb _ _) with true.
  2:{ symmetry. apply forallb_forall. intros i Hi. apply in_seq0 in Hi. cbn [get hd]. apply Nat.ltb_lt. eapply is_perm_lt; eauto. }
  cbn [bind set_nth]. set (o4 := if (0 <? _)%nat then _ else _).
  assert (L4: length (shape o4) = 3%nat).
  { unfold o4. destruct (0 <? _)%nat; auto. }
  clearbody o4. unfold index_one_hot, assert, guard. unfold size at 2. cbn [unsqueeze shape].
  destruct (shape o4) as [|a [|b [|d [|]]]]; try discriminate. cbn [insert_nth nth].
  destruct s as [ss gs]. cbn [shape] in Hs. subst ss. rewrite squeeze_1 by reflexivity. unfold size. cbn [remove_nth shape nth].
  destruct (Nat.eqb_spec (lf_L lf) 1); [contradiction|]. reflexivity.
Qed.
End Diff.
