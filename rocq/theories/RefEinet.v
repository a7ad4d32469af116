(** The forward pass of a well-formed Einet computes the logarithm of a circuit [fnet]. *)
From Coq Require Import List Arith Lia Bool Reals Lra.
Import ListNotations.
From Verif Require Import Base RSum Num Tensor Prob Layers Circuit Net RefFwd RefSample RefLaw Leaf Perm RefLeaf RefLeafS Einet RefNet.
Local Open Scope R_scope.
Local Arguments Nat.div : simpl never.
Local Arguments Nat.modulo : simpl never.
Local Arguments Nat.sub : simpl never.
Local Arguments Nat.mul : simpl never.
Local Arguments Nat.add : simpl never.

(** The group a scope tensor assigns to feature [f] in repetition [r]. *)
Definition find_group (sc : tensor nat) (Fo : nat) (r f : nat) : nat :=
  hd 0%nat (filter (fun o => Nat.eqb (get sc [f; o; r]) 1) (seq 0 Fo)).

Definition leaf_out {V} (E : einet V) : nat :=
  match e_leaf E with LFact _ Fo _ | LSimple _ Fo _ _ => Fo | LBase _ => e_F E end.
Definition leaf_layer_ok {V} (E : einet V) : Prop :=
  match e_leaf E, e_perm E with
  | LFact _ Fo sc, None => scopes_grp sc (e_F E) Fo (e_R E) (find_group sc Fo)
  | LSimple _ Fo pl pinv, None =>
      e_R E = 1%nat /\ (0 < Fo)%nat /\ is_perm pl (e_F E + simple_dummy (e_F E) Fo) /\ pinv = argsort pl
  | LBase _, Some (p, q) => forall r, (r < e_R E)%nat -> is_perm (p r) (e_F E) /\ q r = argsort (p r)
  | _, _ => False
  end.

(** What construction establishes ([Build.v]), with finite parameters. *)
Record einet_ok {V} (E : einet V) : Prop := {
  eo_F : (0 < e_F E)%nat; eo_C : (0 < e_C E)%nat; eo_L : (0 < e_L E)%nat; eo_R : (0 < e_R E)%nat; eo_K : (0 < e_K E)%nat;
  eo_leaf : leaf_ok (leaf_of (e_leaf E));
  eo_lC : lf_C (leaf_of (e_leaf E)) = e_C E; eo_lF : lf_F (leaf_of (e_leaf E)) = e_F E;
  eo_lL : lf_L (leaf_of (e_leaf E)) = e_L E; eo_lR : lf_R (leaf_of (e_leaf E)) = e_R E;
  eo_ll : leaf_layer_ok E;
  eo_layers : layers_ok (e_R E) (e_layers E) (leaf_out E) (e_L E) 1 (e_K E);
  eo_mix : (1 < e_R E)%nat -> exists m, e_mixing E = Some m /\ mixing_ok m /\ sin m = e_R E /\ sout m = e_K E;
  eo_root : (1 < e_K E)%nat -> exists s, e_root E = Some s /\ sum_ok s /\ nf s = 1%nat /\ sin s = e_K E /\ sout s = 1%nat /\ nrep s = 1%nat }.

(** Groups of features at the bottom of the circuit, in the forward pass and in sampling. *)
Definition fgrp {V} (E : einet V) (r f : nat) : nat :=
  match e_leaf E with
  | LFact _ Fo sc => fact_grp (e_F E) Fo (find_group sc Fo) r f
  | LSimple _ Fo pl _ => simple_grp (e_F E) Fo pl f
  | LBase _ => match e_perm E with Some (p, _) => nth f (argsort (p r)) 0%nat | None => f end
  end.
Definition sgrp {V} (E : einet V) (r f : nat) : nat :=
  match e_leaf E with
  | LFact _ Fo sc => find_group sc Fo r f
  | LSimple _ Fo pl _ => simple_sgrp (e_F E) Fo pl f
  | LBase _ => match e_perm E with Some (_, q) => nth f (q r) 0%nat | None => f end
  end.
Definition emix {V} (E : einet V) (T : R) (y r : nat) : R :=
  match e_mixing E with Some m => if Nat.ltb 1 (e_R E) then mixing_w m T y r else 1 | None => 1 end.
Definition net_with {V} (E : einet V) (grp : nat -> nat -> nat) (T : R) : cnet :=
  mkN (e_F E) (e_C E) (e_L E) (e_R E) (leaf_out E) (e_K E) (layers_us T (e_L E) (e_layers E)) grp (emix E T).
Definition fnet {V} (E : einet V) : cnet := net_with E (fgrp E) 1.
Definition snet {V} (E : einet V) (T : R) : cnet := net_with E (sgrp E) T.

Section Ok.
Context {V : Type}.
Variable E : einet V.
Hypothesis HE : einet_ok E.
Let lf := leaf_of (e_leaf E).

Lemma simple_grp_lt F Fo pl f : (0 < Fo)%nat -> (0 < F)%nat -> is_perm pl (F + simple_dummy F Fo) -> (f < F)%nat ->
  (simple_grp F Fo pl f < Fo)%nat.
Proof.
  intros HFo HF Hp Hf. unfold simple_grp. pose proof (simple_total F Fo HFo) as T. pose proof (simple_card_pos F Fo HFo HF).
  apply Nat.div_lt_upper_bound; [lia|]. rewrite <- T.
  apply (argsort_nth pl _ f Hp). lia.
Qed.
Lemma fgrp_lt r f : (r < e_R E)%nat -> (f < e_F E)%nat -> (fgrp E r f < leaf_out E)%nat.
Proof.
  intros Hr Hf. pose proof (eo_ll E HE) as H. unfold leaf_layer_ok, fgrp, leaf_out in *.
  destruct (e_leaf E) as [? Fo sc|? Fo pl pinv|?]; destruct (e_perm E) as [[p q]|]; try tauto.
  - destruct H as (_ & H & _). unfold fact_grp. destruct (Nat.eqb_spec (e_F E) Fo); [lia|auto].
  - destruct H as (_ & H1 & H2 & _). apply simple_grp_lt; auto. apply (eo_F E HE).
  - destruct (H r Hr) as [H1 _]. apply (argsort_nth _ _ f H1 Hf).
Qed.
Lemma sgrp_lt r f : (r < e_R E)%nat -> (f < e_F E)%nat -> (sgrp E r f < leaf_out E)%nat.
Proof.
  intros Hr Hf. pose proof (eo_ll E HE) as H. unfold leaf_layer_ok, sgrp, leaf_out in *.
  destruct (e_leaf E) as [? Fo sc|? Fo pl pinv|?]; destruct (e_perm E) as [[p q]|]; try tauto.
  - destruct H as (_ & H & _). auto.
  - destruct H as (_ & H1 & _). unfold simple_sgrp. apply Nat.mod_upper_bound. lia.
  - destruct (H r Hr) as [H1 ->]. apply (argsort_nth _ _ f H1 Hf).
Qed.

Lemma emix_pos T y r : (y < e_K E)%nat -> (r < e_R E)%nat -> 0 < emix E T y r.
Proof.
  intros Hy Hr. unfold emix. destruct (e_mixing E) as [m|] eqn:Em; [|lra].
  destruct (Nat.ltb_spec 1 (e_R E)) as [H|H]; [|lra].
  destruct (eo_mix E HE H) as (m' & Em' & (H1 & _) & _). rewrite Em in Em'. inversion Em'; subst m'. apply wsoft_pos. auto.
Qed.
Lemma emix_sum T y : (y < e_K E)%nat -> rsum (e_R E) (emix E T y) = 1.
Proof.
  intros Hy. destruct (Nat.ltb_spec 1 (e_R E)) as [H|H].
  - destruct (eo_mix E HE H) as (m & Em & (H1 & _) & H2 & H3).
    rewrite (rsum_ext _ _ (mixing_w m T y)).
    + rewrite <- H2. apply wsoft_sum. auto.
    + intros r Hr. unfold emix. rewrite Em. destruct (Nat.ltb_spec 1 (e_R E)); [auto|lia].
  - pose proof (eo_R E HE). replace (e_R E) with 1%nat by lia. rewrite rsum_S, rsum_0. unfold emix.
    destruct (e_mixing E); [|lra]. destruct (Nat.ltb_spec 1 (e_R E)); [lia|lra].
Qed.
Lemma net_wf grp T : (forall r f, (r < e_R E)%nat -> (f < e_F E)%nat -> (grp r f < leaf_out E)%nat) -> cnet_wf (net_with E grp T).
Proof.
  intros H. split; cbn [net_with nR nls nD nL nCls nF ngroup nmix]; auto.
  - apply layers_chain. apply (eo_layers E HE).
  - intros. apply emix_pos; auto.
  - intros. apply emix_sum; auto.
Qed.
Lemma fnet_wf : cnet_wf (fnet E).
Proof. apply net_wf. apply fgrp_lt. Qed.
Lemma snet_wf T : cnet_wf (snet E T).
Proof. apply net_wf. apply sgrp_lt. Qed.

(** ** The permutation of a bottom-up network *)
Lemma permute_reps_rep p F N L Rn x v : (forall r, (r < Rn)%nat -> is_perm (p r) F) -> trep x N F L Rn v ->
  forall k, (k <= Rn)%nat -> exists y, permute_reps (buffer Rn F p) k x = Ok y /\
    trep y N F L Rn (fun n d l r => if Nat.ltb r k then v n (nth d (p r) 0%nat) l r else v n d l r).
Proof.
  intros Hp Hx k. induction k as [|k IH]; intros Hk.
  - exists x. split; auto.
  - destruct IH as (y & Ey & Sy & Gy); [lia|]. cbn [permute_reps]. rewrite Ey. cbn [bind].
    unfold permute_rep, select, buffer, size. cbn [shape nth]. rewrite Sy. cbn [nth].
    destruct (Nat.ltb_spec k Rn) as [Hkr|]; [|lia]. cbn [remove_nth bind].
    unfold index_dim, size. cbn [shape nth].
    replace (forallb _ _) with true.
    2:{ symmetry. apply forallb_forall. intros i Hi. apply in_seq0 in Hi. cbn [get insert_nth hd nth]. apply Nat.ltb_lt.
        apply is_perm_lt; auto. }
    cbn [bind shape set_nth]. rewrite eqb_list_refl. cbn [guard bind]. eexists. split; [reflexivity|]. split; [reflexivity|].
    intros n d l r Hn Hd Hl Hr. cbn [get nth remove_nth insert_nth set_nth hd].
    destruct (Nat.eqb_spec r k) as [->|Hne].
    + destruct (Nat.ltb_spec k (S k)) as [_|]; [|lia].
      assert (Hd': (nth d (p k) 0 < F)%nat) by (apply is_perm_lt; auto).
      pose proof (Gy n (nth d (p k) 0%nat) l k Hn Hd' Hl Hr) as G. destruct (Nat.ltb_spec k k); [lia|]. exact G.
    + pose proof (Gy n d l r Hn Hd Hl Hr) as G.
      destruct (Nat.ltb_spec r (S k)), (Nat.ltb_spec r k); try lia; exact G.
Qed.

(** ** Leaf layer, channel merge and permutation *)
Definition leaf_stage (x : tensor (option V)) (ms : option (list nat)) : res (tensor num) :=
  y <- leaf_forward (e_leaf E) x ms ;;
  y <- merge_channels E y ;;
  match e_perm E with None => Ok y | Some (p, _) => permute_reps (buffer (e_R E) (e_F E) p) (e_R E) y end.

(** The same from the log-likelihoods of the base leaf. *)
Definition leaf_top (t : tensor num) : res (tensor num) :=
  match e_leaf E with
  | LFact lf Fo sc => fact_forward lf Fo sc t
  | LSimple lf Fo perm _ => simple_forward lf Fo (vec perm) t
  | LBase _ => Ok t
  end.
Definition top_stage (t : tensor num) : res (tensor num) :=
  y <- leaf_top t ;;
  y <- merge_channels E y ;;
  match e_perm E with None => Ok y | Some (p, _) => permute_reps (buffer (e_R E) (e_F E) p) (e_R E) y end.
Lemma leaf_stage_top x ms : leaf_stage x ms = bind (base_forward lf x ms) top_stage.
Proof.
  unfold leaf_stage, top_stage, leaf_top, leaf_forward, lf. destruct (base_forward (leaf_of (e_leaf E)) x ms); reflexivity.
Qed.

Lemma top_stage_rep N t (qv : nat -> leaves) : shape t = [N; lf_C lf; lf_F lf; lf_L lf; lf_R lf] ->
  (forall n c f l r, 0 < qv n c f l r) ->
  (forall n c f l r, (n < N)%nat -> (c < lf_C lf)%nat -> (f < lf_F lf)%nat -> (l < lf_L lf)%nat -> (r < lf_R lf)%nat ->
     get t [n; c; f; l; r] = Fin (ln (qv n c f l r))) ->
  exists y, top_stage t = Ok y /\ trep y N (leaf_out E) (e_L E) (e_R E) (fun n => leafval (fnet E) (qv n)).
Proof.
  intros St Hq Gt. unfold top_stage, leaf_top.
  pose proof (eo_ll E HE) as H. pose proof (eo_lC E HE) as EC. pose proof (eo_lF E HE) as EF.
  pose proof (eo_lL E HE) as EL'. pose proof (eo_lR E HE) as ER. fold lf in EC, EF, EL', ER.
  unfold leaf_layer_ok, leaf_out in *. unfold merge_channels.
  change (leafval (fnet E)) with (gleaf (e_F E) (e_C E) (fgrp E)). unfold fgrp.
  assert (ELF: leaf_of (e_leaf E) = lf) by reflexivity. clearbody lf.
  destruct (e_leaf E) as [lf' Fo sc|lf' Fo pl pinv|lf']; cbn [leaf_of] in ELF; subst lf';
    destruct (e_perm E) as [[p q]|]; try tauto.
  - rewrite <- EF, <- ER in H. destruct (fact_forward_rep lf Fo sc _ N t _ H St Hq Gt) as (y & Ey & Sy & Gy).
    rewrite Ey. cbn [bind]. unfold size. rewrite Sy. cbn [nth]. rewrite EL', ER, eqb_list_refl. cbn [assert guard bind].
    exists y. split; [reflexivity|]. rewrite <- EL', <- ER, <- EF, <- EC. split; auto.
  - destruct H as (HR & HFo & Hp & _). rewrite <- EF in Hp. rewrite HR in *.
    assert (HF0: (0 < lf_F lf)%nat) by (rewrite EF; apply (eo_F E HE)).
    destruct (simple_forward_rep lf Fo pl N t _ HFo HF0 ER Hp St Hq Gt) as (y & Ey & Sy & Gy).
    rewrite Ey. cbn [bind]. unfold size. rewrite Sy. cbn [nth]. rewrite EL', ER, eqb_list_refl. cbn [assert guard bind].
    exists y. split; [reflexivity|]. rewrite <- EL', <- EF, <- EC. rewrite <- ER. split; auto.
  - cbn [bind]. pose proof (channel_sum_rep lf N t _ St Hq Gt) as R. pose proof R as [Sy _].
    unfold size. rewrite Sy. cbn [nth]. rewrite EL', ER, EF, eqb_list_refl. cbn [assert guard bind].
    rewrite EC, EF, EL', ER in R.
    destruct (permute_reps_rep p (e_F E) N (e_L E) (e_R E) _ _ (fun r Hr => proj1 (H r Hr)) R (e_R E) (le_n _)) as (y & Ey & Ry).
    exists y. split; auto. eapply trep_ext; [exact Ry|]. intros n Hn d l r Hd' Hl Hr. cbn beta.
    destruct (Nat.ltb_spec r (e_R E)); [|lia]. unfold gleaf. destruct (H r Hr) as [Hp _].
    assert (Hlt: (nth d (p r) 0 < e_F E)%nat) by (apply is_perm_lt; auto).
    rewrite (rprod_single (e_F E) (nth d (p r) 0%nat)); auto.
    + rewrite (argsort_left _ _ _ Hp Hd'), Nat.eqb_refl. reflexivity.
    + intros f Hf Hne. destruct (Nat.eqb_spec (nth f (argsort (p r)) 0%nat) d) as [Z|]; auto.
      exfalso. apply Hne. subst d. symmetry. apply (argsort_nth _ _ f Hp Hf).
Qed.
Lemma leaf_stage_rep N x ms : data_ok lf N x ms ->
  exists y, leaf_stage x ms = Ok y /\
    trep y N (leaf_out E) (e_L E) (e_R E) (fun n => leafval (fnet E) (lval (pdf lf) (seen x ms n))).
Proof.
  intros Hd. destruct (base_forward_rep lf (eo_leaf E HE) N x ms Hd) as (t & Et & St & Gt).
  rewrite leaf_stage_top, Et. cbn [bind]. apply top_stage_rep; auto. intros; apply lval_pos.
Qed.

(** ** The whole forward pass *)
Definition ev_values (x : tensor (option V)) (ms : option (list nat)) (n : nat) : vals :=
  leafval (fnet E) (lval (pdf lf) (seen x ms n)).

Lemma evals_root_pos T v y r : vpos (leaf_out E) (e_L E) (e_R E) v -> (y < e_K E)%nat -> (r < e_R E)%nat ->
  0 < evals (layers_us T (e_L E) (e_layers E)) v 0%nat y r.
Proof.
  intros Hv Hy Hr. eapply (evals_pos (e_R E)); [apply layers_chain; apply (eo_layers E HE)|exact Hv| | |]; auto.
Qed.

Definition permuted (x : tensor num) : res (tensor num) :=
  match e_perm E with None => Ok x | Some (p, _) => permute_reps (buffer (e_R E) (e_F E) p) (e_R E) x end.
Lemma forward_upper_rep N x0 x v : permuted x0 = Ok x -> trep x N (leaf_out E) (e_L E) (e_R E) v ->
  exists y cs, forward_upper E x0 = Ok (y, cs) /\ shape y = [N; e_K E] /\
    (forall n k, (n < N)%nat -> (k < e_K E)%nat ->
       get y [n; k] = Fin (ln (rsum (e_R E) (fun r => emix E 1 k r * evals (layers_us 1 (e_L E) (e_layers E)) (v n) 0%nat k r)))) /\
    layers_cached 1 (e_R E) (leaf_out E) (e_L E) (e_layers E) (ca_layers cs) N v /\
    ((1 < e_R E)%nat -> forall m, e_mixing E = Some m ->
       mixing_cached m N (ca_mixing cs) (fun n y r => evals (layers_us 1 (e_L E) (e_layers E)) (v n) 0%nat y r)).
Proof.
  intros Hp Hx. unfold forward_upper. fold (permuted x0). rewrite Hp. cbn [bind].
  destruct (forward_layers_rep (e_R E) (e_layers E) _ _ _ _ N x v (eo_layers E HE) Hx) as (z & cs & Ez & Hz & Hcs).
  rewrite Ez. cbn [bind]. pose proof Hz as [Sz Gz]. unfold size4. rewrite Sz. cbn [bind Nat.eqb assert guard].
  rewrite Nat.eqb_refl. cbn [assert guard bind].
  destruct (Nat.ltb_spec 1 (e_R E)) as [HR|HR].
  - destruct (eo_mix E HE HR) as (m & Em & Hm & Hs1 & Hs2). rewrite Em. cbn [attr bind].
    assert (Gz': forall n y r, (n < N)%nat -> (y < sout m)%nat -> (r < sin m)%nat ->
      0 < evals (layers_us 1 (e_L E) (e_layers E)) (v n) 0%nat y r /\
      get z [n; 0%nat; y; r] = Fin (ln (evals (layers_us 1 (e_L E) (e_layers E)) (v n) 0%nat y r))).
    { intros n y r Hn Hy Hr. apply Gz; auto; lia. }
    destruct (mixing_forward_rep m z N (fun n y r => evals (layers_us 1 (e_L E) (e_layers E)) (v n) 0%nat y r) Hm) as (o & Eo & So & Go); auto.
    { rewrite Sz, Hs1, Hs2. reflexivity. }
    rewrite Eo. cbn [bind]. destruct o as [so go]. cbn [shape get] in *. subst so.
    rewrite squeeze_1 by reflexivity. cbn [remove_nth shape]. rewrite Hs2, eqb_list_refl. cbn [assert guard bind].
    eexists. eexists. split; [reflexivity|]. split; [reflexivity|]. split; [|split; [exact Hcs|]].
    + intros n k Hn Hk. cbn [get insert_nth]. destruct (Go n k) as [_ G]; [auto|lia|]. rewrite G. f_equal. f_equal.
      rewrite Hs1. apply rsum_ext. intros r Hr. unfold emix. rewrite Em. destruct (Nat.ltb_spec 1 (e_R E)); [auto|lia].
    + intros _ m' Em'. inversion Em'; subst m'. right. exists z. split; [reflexivity|].
      split; [rewrite Sz, Hs1, Hs2; auto|]. exact Gz'.
  - pose proof (eo_R E HE). assert (ER: e_R E = 1%nat) by lia. cbn [bind].
    destruct z as [sz gz]. cbn [shape get] in *. subst sz. rewrite ER. rewrite squeeze_1 by reflexivity. cbn [remove_nth].
    rewrite squeeze_1 by reflexivity. cbn [remove_nth shape]. rewrite eqb_list_refl. cbn [assert guard bind].
    eexists. eexists. split; [reflexivity|]. split; [reflexivity|]. split; [|split; [|intros; lia]].
    + intros n k Hn Hk. cbn [get insert_nth]. destruct (Gz n 0%nat k 0%nat) as [_ G]; auto. rewrite G. f_equal. f_equal.
      rewrite rsum_S, rsum_0. unfold emix. rewrite ER. cbn [Nat.ltb Nat.leb]. destruct (e_mixing E); ring.
    + rewrite ER in Hcs. exact Hcs.
Qed.
Lemma top_stage_eq t : top_stage t = bind (leaf_top t) (fun y => bind (merge_channels E y) permuted).
Proof. reflexivity. Qed.

Lemma top_forward N t (q : nat -> leaves) : shape t = [N; lf_C lf; lf_F lf; lf_L lf; lf_R lf] ->
  (forall n c f l r, 0 < q n c f l r) ->
  (forall n c f l r, (n < N)%nat -> (c < lf_C lf)%nat -> (f < lf_F lf)%nat -> (l < lf_L lf)%nat -> (r < lf_R lf)%nat ->
     get t [n; c; f; l; r] = Fin (ln (q n c f l r))) ->
  exists y cs, bind (leaf_top t) (fun y => bind (merge_channels E y) (forward_upper E)) = Ok (y, cs) /\
    shape y = [N; e_K E] /\
    (forall n k, (n < N)%nat -> (k < e_K E)%nat -> get y [n; k] = Fin (ln (neteval (fnet E) (q n) k))) /\
    layers_cached 1 (e_R E) (leaf_out E) (e_L E) (e_layers E) (ca_layers cs) N (fun n => leafval (fnet E) (q n)) /\
    ((1 < e_R E)%nat -> forall m, e_mixing E = Some m ->
       mixing_cached m N (ca_mixing cs) (fun n y r => evals (layers_us 1 (e_L E) (e_layers E)) (leafval (fnet E) (q n)) 0%nat y r)).
Proof.
  intros St Hq Gt. destruct (top_stage_rep N t q St Hq Gt) as (x1 & E1 & R1). rewrite top_stage_eq in E1.
  destruct (leaf_top t) as [y0|] eqn:E0; [|discriminate]. cbn [bind] in *.
  destruct (merge_channels E y0) as [y1|] eqn:E2; [|discriminate]. cbn [bind] in *.
  destruct (forward_upper_rep N y1 x1 _ E1 R1) as (y & cs & Ey & Sy & Gy & H1 & H2).
  exists y, cs. split; auto.
Qed.

Lemma forward_stage N x ms : data_ok lf N x ms ->
  exists y cs, bind (leaf_forward (e_leaf E) x ms) (fun y => bind (merge_channels E y) (forward_upper E)) = Ok (y, cs) /\
    shape y = [N; e_K E] /\
    (forall n k, (n < N)%nat -> (k < e_K E)%nat ->
       get y [n; k] = Fin (ln (neteval (fnet E) (lval (pdf lf) (seen x ms n)) k))) /\
    layers_cached 1 (e_R E) (leaf_out E) (e_L E) (e_layers E) (ca_layers cs) N (ev_values x ms) /\
    ((1 < e_R E)%nat -> forall m, e_mixing E = Some m ->
       mixing_cached m N (ca_mixing cs) (fun n y r => evals (layers_us 1 (e_L E) (e_layers E)) (ev_values x ms n) 0%nat y r)).
Proof.
  intros Hd. destruct (base_forward_rep lf (eo_leaf E HE) N x ms Hd) as (t & Et & St & Gt).
  destruct (top_forward N t (fun n => lval (pdf lf) (seen x ms n)) St) as (y & cs & Ey & R); auto.
  { intros; apply lval_pos. }
  exists y, cs. split; [|exact R]. rewrite <- Ey. unfold leaf_forward, leaf_top. fold lf. rewrite Et.
  destruct (e_leaf E); reflexivity.
Qed.
End Ok.

(** ** Input layouts: [N, F] (one channel), [N, C, F] or [N, C, H, W] *)
Definition wshape (s : list nat) (N C F : nat) : Prop :=
  (s = [N; F] /\ C = 1%nat) \/ s = [N; C; F] \/ exists H W, s = [N; C; H; W] /\ (H * W = F)%nat /\ (0 < N)%nat.
(** Position of entry (row, channel, feature) in such a shape. *)
Definition ix (s : list nat) (n c f : nat) : list nat :=
  match s with
  | [_; _] => [n; f]
  | [_; _; _; W] => [n; c; (f / W)%nat; (f mod W)%nat]
  | _ => [n; c; f]
  end.
Definition entry {A} (x : tensor A) (n c f : nat) : A := get x (ix (shape x) n c f).

Lemma ix_ravel s N C F n c f : wshape s N C F -> (n < N)%nat -> (c < C)%nat -> (f < F)%nat ->
  inb s (ix s n c f) /\ ravel s (ix s n c f) = ravel [N; C; F] [n; c; f] /\ numel s = numel [N; C; F].
Proof.
  intros [(-> & ->)|[->|(H & W & -> & <- & _)]] Hn Hc Hf; cbn [ix inb ravel numel].
  - assert (c = 0%nat) by lia. subst c. split; [auto|]. split; ring.
  - auto 10.
  - assert (W <> 0)%nat by (intro; subst; lia). pose proof (Nat.div_mod f W ltac:(lia)) as D.
    pose proof (Nat.mod_upper_bound f W ltac:(lia)).
    assert (f / W < H)%nat by (apply Nat.div_lt_upper_bound; lia).
    split; [auto 10|]. split; [|ring]. rewrite !Nat.mul_1_r, !Nat.add_0_r.
    rewrite D at 3. ring.
Qed.
Lemma wshape_numel s N C F : wshape s N C F -> numel s = numel [N; C; F].
Proof. intros [(-> & ->)|[->|(H & W & -> & <- & _)]]; cbn [numel]; ring. Qed.

Lemma view_3 {A} (x : tensor A) N C F : wshape (shape x) N C F ->
  exists y, view [N; C; F] x = Ok y /\ shape y = [N; C; F] /\
    forall n c f, (n < N)%nat -> (c < C)%nat -> (f < F)%nat -> get y [n; c; f] = entry x n c f.
Proof.
  intros H. unfold view. rewrite <- (wshape_numel _ _ _ _ H), Nat.eqb_refl. eexists. split; [reflexivity|]. split; [reflexivity|].
  intros n c f Hn Hc Hf. destruct (ix_ravel _ N C F n c f H Hn Hc Hf) as (H1 & H2 & _). cbn [get].
  rewrite <- H2. rewrite unravel_ravel by auto. reflexivity.
Qed.
Lemma view_back {A} (y : tensor A) s N C F : wshape s N C F -> shape y = [N; C; F] ->
  exists x, view s y = Ok x /\ shape x = s /\
    forall n c f, (n < N)%nat -> (c < C)%nat -> (f < F)%nat -> entry x n c f = get y [n; c; f].
Proof.
  intros H Hy. unfold view. rewrite Hy. rewrite <- (wshape_numel _ _ _ _ H), Nat.eqb_refl.
  eexists. split; [reflexivity|]. split; [reflexivity|].
  intros n c f Hn Hc Hf. destruct (ix_ravel _ N C F n c f H Hn Hc Hf) as (H1 & H2 & _). unfold entry. cbn [get shape].
  rewrite H2. rewrite unravel_ravel; [reflexivity|]. cbn; auto.
Qed.

Section Fwd.
Context {V : Type}.
Variable E : einet V.
Hypothesis HE : einet_ok E.
Let lf := leaf_of (e_leaf E).

Definition row (x : tensor (option V)) (ms : option (list nat)) (n : nat) : pdata V := fun c f =>
  if in_ms ms f then None else entry x n c f.

(** Data a user may pass: a supported layout, values in the support of the leaves; marginalized scopes
    are features and, when they are given, entries outside them are present. *)
Definition input_ok (N : nat) (x : tensor (option V)) (ms : option (list nat)) : Prop :=
  wshape (shape x) N (e_C E) (e_F E) /\
  (forall n c f v, (n < N)%nat -> (c < e_C E)%nat -> (f < e_F E)%nat -> entry x n c f = Some v -> lf_supp lf v = true) /\
  match ms with
  | None => True
  | Some s => (forall f, In f s -> (f < e_F E)%nat) /\
      forall n c f, (n < N)%nat -> (c < e_C E)%nat -> (f < e_F E)%nat -> ~ In f s -> entry x n c f <> None
  end.

Lemma prepare_ok N x : wshape (shape x) N (e_C E) (e_F E) ->
  exists y, prepare E x = Ok y /\ shape y = [N; e_C E; e_F E] /\
    forall n c f, (n < N)%nat -> (c < e_C E)%nat -> (f < e_F E)%nat -> get y [n; c; f] = entry x n c f.
Proof.
  intros H. pose proof (eo_C E HE) as HC. unfold prepare. pose proof H as H'. destruct x as [s g]. cbn [shape] in *.
  destruct H as [(-> & EC)|[->|(Hh & W & -> & EF & HN)]].
  - change (dim (mkT [N; e_F E] g)) with 2%nat. cbn [Nat.eqb]. change (dim (unsqueeze 1 (mkT [N; e_F E] g))) with 3%nat. cbn [Nat.eqb bind].
    change (size (unsqueeze 1 (mkT [N; e_F E] g)) 1) with 1%nat. rewrite EC. cbn [Nat.eqb assert guard bind].
    change (size (unsqueeze 1 (mkT [N; e_F E] g)) 2) with (e_F E). rewrite ?Nat.eqb_refl. cbn [assert guard bind].
    eexists. split; [reflexivity|]. split; [reflexivity|]. intros n c f _ _ _. reflexivity.
  - unfold dim, size. cbn [shape length nth Nat.eqb bind]. rewrite ?Nat.eqb_refl. cbn [assert guard bind shape nth]. 
    rewrite ?Nat.eqb_refl. cbn [assert guard bind].
    eexists. split; [reflexivity|]. split; [reflexivity|]. reflexivity.
  - change (dim (mkT [N; e_C E; Hh; W] g)) with 4%nat. cbn [Nat.eqb]. change (dim (mkT [N; e_C E; Hh; W] g)) with 4%nat. cbn [Nat.eqb].
    unfold view_infer, size. cbn [shape nth app]. cbn [numel].
    destruct (Nat.eqb_spec (N * (e_C E * 1) * 1) 0) as [Z|Z]; [lia|].
    replace (N * (e_C E * (Hh * (W * 1))) / (N * (e_C E * 1) * 1))%nat with (e_F E).
    2:{ apply Nat.div_unique with (r := 0%nat); [lia|]. rewrite <- EF. ring. }
    destruct (view_3 (mkT [N; e_C E; Hh; W] g) N (e_C E) (e_F E) H') as (y & -> & Sy & Gy). cbn [bind].
    unfold dim. rewrite Sy. cbn [length nth Nat.eqb]. rewrite !Nat.eqb_refl. cbn [assert guard bind].
    exists y. auto.
Qed.

Lemma input_data N x ms y : input_ok N x ms -> shape y = [N; e_C E; e_F E] ->
  (forall n c f, (n < N)%nat -> (c < e_C E)%nat -> (f < e_F E)%nat -> get y [n; c; f] = entry x n c f) ->
  data_ok lf N y ms.
Proof.
  intros (H1 & H2 & H3) Sy Gy. pose proof (eo_lC E HE) as EC. pose proof (eo_lF E HE) as EF. fold lf in EC, EF.
  split; [rewrite EC, EF; auto|]. rewrite EC, EF. split.
  - intros n c f v Hn Hc Hf Hg. rewrite Gy in Hg by auto. eapply H2; [| | |exact Hg]; auto.
  - destruct ms as [s|]; auto. destruct H3 as [H3 H4]. split; auto. intros n c f Hn Hc Hf Hi. rewrite Gy by auto. auto.
Qed.

Lemma seen_row N x ms y n : 
  (forall n c f, (n < N)%nat -> (c < e_C E)%nat -> (f < e_F E)%nat -> get y [n; c; f] = entry x n c f) -> (n < N)%nat ->
  qagree (fnet E) (lval (pdf lf) (seen y ms n)) (lval (pdf lf) (row x ms n)).
Proof.
  intros Gy Hn c f l r Hc Hf _ _. unfold lval, seen, row. destruct (in_ms ms f); auto. rewrite Gy; auto.
Qed.

Lemma forward_full_rep N x ms : input_ok N x ms ->
  exists y cs, forward_full E x ms = Ok (y, cs) /\ shape y = [N; e_K E] /\
    (forall n k, (n < N)%nat -> (k < e_K E)%nat ->
       get y [n; k] = Fin (ln (neteval (fnet E) (lval (pdf lf) (row x ms n)) k))) /\
    exists v, (forall n, (n < N)%nat -> vagree (leaf_out E) (e_L E) (e_R E) (v n) (leafval (fnet E) (lval (pdf lf) (row x ms n)))) /\
    layers_cached 1 (e_R E) (leaf_out E) (e_L E) (e_layers E) (ca_layers cs) N v /\
    ((1 < e_R E)%nat -> forall m, e_mixing E = Some m ->
       mixing_cached m N (ca_mixing cs) (fun n y r => evals (layers_us 1 (e_L E) (e_layers E)) (v n) 0%nat y r)).
Proof.
  intros Hi. destruct (prepare_ok N x (proj1 Hi)) as (z & Ez & Sz & Gz).
  pose proof (input_data N x ms z Hi Sz Gz) as Hd.
  destruct (forward_stage E HE N z ms Hd) as (y & cs & Ey & Sy & Gy & H1 & H2).
  unfold forward_full. rewrite Ez. cbn [bind].
  exists y, cs. split; [exact Ey|]. split; auto. split.
  - intros n k Hn Hk. rewrite Gy by auto. f_equal. f_equal. apply neteval_ext; auto; [apply fnet_wf; auto|].
    apply (seen_row N); auto.
  - exists (ev_values E z ms). split; auto. intros n Hn. apply (leafval_ext (fnet E)). apply (seen_row N); auto.
Qed.

(** The forward pass never fails on such data and returns the log of the circuit value. *)
Theorem forward_rep N x ms : input_ok N x ms ->
  exists y, forward E x ms = Ok y /\ shape y = [N; e_K E] /\
    forall n k, (n < N)%nat -> (k < e_K E)%nat ->
       get y [n; k] = Fin (ln (neteval (fnet E) (lval (pdf lf) (row x ms n)) k)).
Proof.
  intros Hi. destruct (forward_full_rep N x ms Hi) as (y & cs & Ey & Sy & Gy & _).
  exists y. unfold forward. rewrite Ey. auto.
Qed.
End Fwd.
