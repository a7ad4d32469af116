(** C28: dropout in training mode. *)
From Coq Require Import List Arith Lia Bool Reals Lra.
Import ListNotations.
From Verif Require Import Base RSum Num Tensor Prob Layers Circuit RefFwd RefLayer Dropout RefDropout.
Local Open Scope R_scope.
Local Arguments Nat.div : simpl never.
Local Arguments Nat.modulo : simpl never.
Local Arguments Nat.mul : simpl never.
Local Arguments Nat.add : simpl never.

(** The value of a sum node whose child [k] is kept iff [keep k]. *)
Definition some_kept (n : nat) (keep : nat -> bool) : Prop := exists k, (k < n)%nat /\ keep k = true.
Definition kept_sum (n : nat) (keep : nat -> bool) (f : nat -> R) : R :=
  rsum n (fun k => if keep k then f k else 0).
Lemma kept_sum_of n m f : rsum n (fun k => kept (m k) * f k) = kept_sum n (fun k => negb (m k)) f.
Proof. apply rsum_ext. intros k _. destruct (m k); cbn [kept negb]; ring. Qed.
Lemma kept_sum_pos n m f : (forall k, (k < n)%nat -> 0 < f k) -> (exists j, (j < n)%nat /\ m j = false) ->
  0 < rsum n (fun k => kept (m k) * f k).
Proof. intros. apply rsum_kept_pos; auto. Qed.
Lemma chan_weight_pos L T d o r k : (0 < sin L)%nat -> 0 < chan_weight L T d o r k.
Proof. intros. apply Rdiv_lt_0_compat; [apply exp_pos|]. apply rsum_pos; auto. intros; apply exp_pos. Qed.
Lemma vexp_pos x n d s r : 0 < vexp x n d s r.
Proof. apply exp_pos. Qed.

(** * MixingLayer *)
(** Whatever the coins, once the call returns, every output is the finite log of the weighted sum
    over the children that were kept, and at least one was. *)
Theorem C28_mixing coin p training fuel L x N r : (0 < sin L)%nat -> lfin (logits L) (mixing_weight_shape L) ->
  values x N (nf L) (sout L) (sin L) -> training = true -> 0 < p ->
  mixing_train coin p training fuel L x = Some r ->
  exists y ca, r = Ok (y, ca) /\ shape y = [N; nf L; sout L] /\
  forall n d o, (n < N)%nat -> (d < nf L)%nat -> (o < sout L)%nat ->
    exists keep, some_kept (sin L) keep /\
      get y [n; d; o] = Fin (ln (kept_sum (sin L) keep (fun k => mix_weight L 1 d o k * vexp x n d o k))).
Proof.
  intros Hs Hl Hx -> Hp H. unfold mixing_train, with_dropout in H. destruct (Rlt_dec 0 p) as [_|]; [|lra].
  pose proof Hx as [Hsx _]. rewrite Hsx in H. unfold drop_mask in H.
  destruct (drop_loop _ _ _ _ _) as [[m|e]|] eqn:E; [| |discriminate]; inversion H; subst r; clear H.
  - apply drop_loop_keeps in E as [Sm Km]. cbn [shape] in Sm.
    destruct (mixing_masked L x N m Hs Hl Hx Sm) as (y & ca & E & Sy & Gy).
    exists y, ca. split; [exact E|]. split; [exact Sy|]. intros n d o Hn Hd Ho.
    exists (fun k => negb (get m [n; d; o; k])).
    destruct (Km [n; d; o]) as (j & Hj & Ej); [simpl; auto|]. unfold size in Hj. cbn [shape nth insert_nth] in Hj, Ej.
    split; [exists j; rewrite Ej; auto|]. rewrite Gy by auto.
    rewrite nlog_pos; [|apply (kept_sum_pos _ (fun k => get m [n; d; o; k])); [|eauto]].
    + rewrite (kept_sum_of _ (fun k => get m [n; d; o; k])). reflexivity.
    + intros k Hk. apply Rmult_lt_0_compat; [|apply vexp_pos].
      apply Rdiv_lt_0_compat; [apply exp_pos|]. apply rsum_pos; auto. intros; apply exp_pos.
  - exfalso. clear - E. change 3%nat with (length [N; nf L; sout L]) in E.
    assert (G: forall fuel k m, shape m = [N; nf L; sout L] ++ [sin L] ->
       drop_loop coin (length [N; nf L; sout L]) fuel k m <> Some (Err e)).
    { clear E. induction fuel0 as [|f IH]; intros k m Hm; cbn [drop_loop].
      - destruct (tany _); discriminate.
      - destruct (tany (all_dropped (length [N; nf L; sout L]) m)) eqn:T; [|discriminate].
        destruct (drop_round coin [N; nf L; sout L] (sin L) k m Hm T) as (m1 & S1 & HL & _).
        specialize (HL f). cbn [drop_loop] in HL. rewrite T in HL. rewrite HL. apply IH; auto. }
    eapply G; [|exact E]. reflexivity.
Qed.
Print Assumptions C28_mixing.

(** The loop ends as soon as one round of coins is all "keep". *)
Theorem C28_mixing_ends coin p training fuel L x N : (0 < sin L)%nat -> values x N (nf L) (sout L) (sin L) ->
  (exists i, (1 <= i <= fuel)%nat /\ forall idx, coin i idx = false) ->
  exists r, mixing_train coin p training fuel L x = Some r.
Proof.
  intros Hs [Hsx _] (i & Hi & Hc). unfold mixing_train, with_dropout. destruct (if Rlt_dec 0 p then training else false); [|eauto].
  rewrite Hsx. unfold drop_mask. change 3%nat with (length [N; nf L; sout L]).
  destruct (drop_loop_ends coin [N; nf L; sout L] (sin L) Hs fuel 1 (mkT [N; nf L; sout L; sin L] (coin 0%nat)) eq_refl) as (m & ->); [|eauto].
  exists (i - 1)%nat. split; [lia|]. replace (1 + (i - 1))%nat with i by lia. auto.
Qed.
Print Assumptions C28_mixing_ends.

(** Without such a round it need not end: coins that always say "drop" keep it running for ever.
    (For a dropout below 1.0, which the constructor enforces, this has probability zero.) *)
Theorem C28_mixing_diverges coin p L x N : 0 < p -> (0 < N)%nat -> (0 < nf L)%nat -> (0 < sout L)%nat ->
  values x N (nf L) (sout L) (sin L) -> (forall k idx, coin k idx = true) ->
  forall fuel, mixing_train coin p true fuel L x = None.
Proof.
  intros Hp HN Hf Ho [Hsx _] Hc fuel. unfold mixing_train, with_dropout. destruct (Rlt_dec 0 p) as [_|]; [|lra]. rewrite Hsx.
  unfold drop_mask. change 3%nat with (length [N; nf L; sout L]).
  rewrite (drop_loop_stuck coin [N; nf L; sout L] (sin L)); auto; [|intros; apply Hc].
  exists [0; 0; 0]%nat. simpl; auto.
Qed.
Print Assumptions C28_mixing_diverges.

(** * LinsumLayer *)
Lemma linsum_drop_shape (x : tensor num) N D S Rn : shape x = [N; D; S; Rn] ->
  shape (unsqueeze 3 (slice_step 1 0 2 x)) = [N; (D + 1) / 2; S; 1; Rn]%nat.
Proof. intros H. unfold unsqueeze, slice_step, size. cbn [shape]. rewrite H. cbn [nth set_nth insert_nth]. rewrite Nat.sub_0_r. reflexivity. Qed.

(** When the call returns a result, at least one child of each node was kept. *)
Theorem C28_linsum_partial coin p fuel L x N y ca : linsum_ok L -> values x N (nf L) (sin L) (nrep L) -> 0 < p ->
  linsum_train coin p true fuel L x = Some (Ok (y, ca)) ->
  shape y = [N; (nf L + 1) / 2; sout L; nrep L]%nat /\
  forall n d o r, (n < N)%nat -> (d < (nf L + 1) / 2)%nat -> (o < sout L)%nat -> (r < nrep L)%nat ->
    exists keep, some_kept (sin L) keep /\
      get y [n; d; o; r] = Fin (ln (kept_sum (sin L) keep (fun k => chan_weight L 1 d o r k * vexp x n (2 * d) k r *
        if (2 * d + 1 <? nf L)%nat then vexp x n (2 * d + 1) k r else 1))).
Proof.
  intros Hok Hx Hp H. unfold linsum_train, with_dropout in H. destruct (Rlt_dec 0 p) as [_|]; [|lra].
  pose proof Hx as [Hsx _]. rewrite (linsum_drop_shape x _ _ _ _ Hsx) in H. unfold drop_mask in H.
  destruct (drop_loop _ _ _ _ _) as [[m|e]|] eqn:E; [|discriminate|discriminate]. injection H as H.
  apply drop_loop_keeps in E as [Sm Km]. cbn [shape] in Sm.
  destruct (linsum_masked L x N m Hok Hx Sm) as (y' & ca' & E & Sy & Gy). rewrite E in H. inversion H; subst y' ca'.
  split; auto. intros n d o r Hn Hd Ho Hr. exists (fun k => negb (get m [n; d; k; 0%nat; r])).
  destruct (Km [n; d; 0%nat; r]) as (j & Hj & Ej); [simpl; repeat split; auto; lia|]. unfold size in Hj. cbn [shape nth insert_nth] in Hj, Ej.
  split; [exists j; rewrite Ej; auto|]. rewrite Gy by auto. destruct Hok as [Hs _].
  rewrite nlog_pos; [|apply (kept_sum_pos _ (fun k => get m [n; d; k; 0%nat; r])); [|eauto]].
  - rewrite (kept_sum_of _ (fun k => get m [n; d; k; 0%nat; r])). reflexivity.
  - intros k Hk. apply Rmult_lt_0_compat; [apply Rmult_lt_0_compat; [apply chan_weight_pos; auto|apply vexp_pos]|].
    destruct (_ <? _)%nat; [apply vexp_pos|lra].
Qed.
Print Assumptions C28_linsum_partial.

(** But it raises as soon as the first draw drops all children of one node, except in a layer with
    one input channel and one repetition. *)
Theorem C28_linsum_refuted coin p fuel L x N n d r : values x N (nf L) (sin L) (nrep L) -> 0 < p ->
  sin L <> 1%nat \/ nrep L <> 1%nat ->
  (n < N)%nat -> (d < (nf L + 1) / 2)%nat -> (r < nrep L)%nat ->
  (forall k, (k < sin L)%nat -> coin 0%nat [n; d; k; 0%nat; r] = true) ->
  linsum_train coin p true (S fuel) L x = Some (Err IndexErr).
Proof.
  intros [Hsx _] Hp Hsr Hn Hd Hr Hc. unfold linsum_train, with_dropout. destruct (Rlt_dec 0 p) as [_|]; [|lra].
  rewrite (linsum_drop_shape x _ _ _ _ Hsx). unfold drop_mask. rewrite drop_loop_fails; [reflexivity| |].
  - apply tany_true. exists [n; d; 0%nat; r]. unfold all_dropped, reduce, size. cbn [shape get remove_nth nth insert_nth inb].
    split; [repeat split; auto; lia|]. apply count_full. auto.
  - cbn [shape remove_nth leading]. rewrite !Nat.eqb_refl. cbn [andb].
    destruct (Nat.eqb_spec 1 (sin L)), (Nat.eqb_spec (nrep L) 1); cbn [andb]; auto. lia.
Qed.
Print Assumptions C28_linsum_refuted.

(** * LinsumLayer2 *)
Lemma linsum2_drop_shape (x : tensor num) N D S O Rn : shape x = [N; D; S; Rn] ->
  set_nth 2 O (shape (slice_step 1 0 2 x)) = [N; (D + 1) / 2; O; Rn]%nat.
Proof. intros H. unfold slice_step, size. cbn [shape]. rewrite H. cbn [nth set_nth]. rewrite Nat.sub_0_r. reflexivity. Qed.

(** The mask is applied to the products, after the sums: a dropped product has log-value minus
    infinity.  At least one product per feature and repetition is kept. *)
Theorem C28_linsum2_partial coin p fuel L x N y ca : linsum2_ok L -> values x N (nf L) (sin L) (nrep L) -> 0 < p ->
  linsum2_train coin p true fuel L x = Some (Ok (y, ca)) ->
  exists y0, linsum2_forward L None x = Ok (y0, ca) /\
  forall n d r, (n < N)%nat -> (d < (nf L + 1) / 2)%nat -> (r < nrep L)%nat ->
    exists keep, some_kept (sout L) keep /\
      forall o, (o < sout L)%nat -> get y [n; d; o; r] = if keep o then get y0 [n; d; o; r] else NInf.
Proof.
  intros Hok Hx Hp H. unfold linsum2_train, with_dropout in H. destruct (Rlt_dec 0 p) as [_|]; [|lra].
  pose proof Hx as [Hsx _]. rewrite (linsum2_drop_shape x _ _ _ (sout L) _ Hsx) in H. unfold drop_mask in H.
  destruct (drop_loop _ _ _ _ _) as [[m|e]|] eqn:E; [|discriminate|discriminate]. injection H as H.
  apply drop_loop_keeps in E as [Sm Km]. cbn [shape] in Sm.
  destruct (linsum2_masked L x N m Hok Hx Sm) as (y0 & y' & ca' & E0 & E & Sy & Gy). rewrite E in H. inversion H; subst y' ca'.
  exists y0. split; auto. intros n d r Hn Hd Hr. exists (fun o => negb (get m [n; d; o; r])).
  destruct (Km [n; d; r]) as (j & Hj & Ej); [simpl; auto|]. unfold size in Hj. cbn [shape nth insert_nth] in Hj, Ej.
  split; [exists j; rewrite Ej; auto|]. intros o Ho. rewrite Gy by auto. cbv beta. destruct (get m [n; d; o; r]); reflexivity.
Qed.
Print Assumptions C28_linsum2_partial.

(** So outputs are minus infinity on finite inputs, and the call raises when all products of a
    feature are dropped, unless there are as many output channels as repetitions. *)
Theorem C28_linsum2_refuted p fuel L x N : linsum2_ok L -> values x N (nf L) (sin L) (nrep L) -> 0 < p ->
  (0 < N)%nat -> (0 < nrep L)%nat -> (0 < sout L)%nat ->
  ((2 <= sout L)%nat -> exists coin y ca, linsum2_train coin p true fuel L x = Some (Ok (y, ca)) /\
     get y [0; 0; 0; 0]%nat = NInf) /\
  (nrep L <> sout L -> exists coin, linsum2_train coin p true (S fuel) L x = Some (Err IndexErr)).
Proof.
  intros Hok Hx Hp HN HR HO. pose proof Hx as [Hsx _].
  assert (HD: (0 < (nf L + 1) / 2)%nat) by (destruct Hok as (_ & Hn & _); apply Nat.div_str_pos; lia).
  split.
  - intros H2. set (coin := fun (_ : nat) (idx : list nat) => (nth 2 idx 0 =? 0)%nat).
    set (m := mkT [N; (nf L + 1) / 2; sout L; nrep L]%nat (coin 0%nat)).
    destruct (linsum2_masked L x N m Hok Hx eq_refl) as (y0 & y & ca & E0 & E & Sy & Gy).
    exists coin, y, ca. unfold linsum2_train, with_dropout. destruct (Rlt_dec 0 p) as [_|]; [|lra].
    rewrite (linsum2_drop_shape x _ _ _ (sout L) _ Hsx). unfold drop_mask. rewrite drop_loop_done.
    + fold m. rewrite E. split; auto. rewrite Gy by auto. reflexivity.
    + apply tany_false. intros idx Hi. unfold all_dropped, reduce, size. cbn [shape get nth].
      destruct (count _ _ =? _)%nat eqn:Q; auto. rewrite count_full in Q.
      unfold all_dropped, reduce in Hi. cbn [shape remove_nth] in Hi.
      destruct idx as [|n [|d idx]]; simpl in Hi; try tauto.
      specialize (Q 1%nat H2). cbn in Q. discriminate.
  - intros H2. exists (fun _ _ => true). unfold linsum2_train, with_dropout. destruct (Rlt_dec 0 p) as [_|]; [|lra].
    rewrite (linsum2_drop_shape x _ _ _ (sout L) _ Hsx). unfold drop_mask. rewrite drop_loop_fails; [reflexivity| |].
    + apply tany_true. exists [0; 0; 0]%nat. unfold all_dropped, reduce, size. cbn [shape get remove_nth nth insert_nth inb].
      split; [auto|]. apply count_full. auto.
    + cbn [shape remove_nth leading]. rewrite !Nat.eqb_refl. cbn [andb].
      destruct (Nat.eqb_spec (nrep L) (sout L)); cbn [andb]; auto. contradiction.
Qed.
Print Assumptions C28_linsum2_refuted.

(** * SumLayer *)
(** The loop looks along the repetitions instead of the children.  With several repetitions a
    node can lose all its children ... *)
Theorem C28_sum_refuted p fuel L x N : sum_ok L -> values x N (nf L) (sin L) (nrep L) -> 0 < p ->
  (0 < N)%nat -> (0 < nf L)%nat -> (2 <= nrep L)%nat ->
  exists coin y ca, sum_train coin p true fuel L x = Some (Ok (y, ca)) /\
    forall o, (o < sout L)%nat -> get y [0; 0; o; 0]%nat = NInf.
Proof.
  intros Hok Hx Hp HN Hf HR. pose proof Hx as [Hsx _].
  set (coin := fun (_ : nat) (idx : list nat) => (nth 3 idx 0 =? 0)%nat).
  set (m := mkT [N; nf L; sin L; nrep L] (coin 0%nat)).
  destruct (sum_masked L x N m Hok Hx eq_refl) as (y & ca & E & Sy & Gy).
  exists coin, y, ca. unfold sum_train, with_dropout. destruct (Rlt_dec 0 p) as [_|]; [|lra].
  rewrite Hsx. unfold drop_mask. rewrite drop_loop_done.
  - fold m. rewrite E. split; auto. intros o Ho. rewrite Gy by (auto; lia).
    rewrite (rsum_ext _ _ (fun _ => 0)) by (intros; cbn; ring).
    replace (rsum (sin L) (fun _ => 0)) with 0; [apply nlog_zero|]. symmetry. rewrite rsum_const. ring.
  - apply tany_false. intros idx Hi. unfold all_dropped, reduce, size. cbn [shape get nth].
    destruct (count _ _ =? _)%nat eqn:Q; auto. rewrite count_full in Q.
    unfold all_dropped, reduce in Hi. cbn [shape remove_nth] in Hi.
    destruct idx as [|n [|d [|s idx]]]; simpl in Hi; try tauto.
    specialize (Q 1%nat HR). cbn in Q. discriminate.
Qed.
Print Assumptions C28_sum_refuted.
(** ... and with one repetition nothing is ever dropped. *)
Theorem C28_sum_single coin p fuel L x N y ca : sum_ok L -> values x N (nf L) (sin L) (nrep L) -> 0 < p -> nrep L = 1%nat ->
  sum_train coin p true fuel L x = Some (Ok (y, ca)) ->
  forall n d o, (n < N)%nat -> (d < nf L)%nat -> (o < sout L)%nat ->
    get y [n; d; o; 0]%nat = Fin (ln (rsum (sin L) (fun k => chan_weight L 1 d o 0 k * vexp x n d k 0))).
Proof.
  intros Hok Hx Hp HR H n d o Hn Hd Ho. unfold sum_train, with_dropout in H. destruct (Rlt_dec 0 p) as [_|]; [|lra].
  pose proof Hx as [Hsx _]. rewrite Hsx in H. unfold drop_mask in H.
  destruct (drop_loop _ _ _ _ _) as [[m|e]|] eqn:E; [|discriminate|discriminate]. injection H as H.
  apply drop_loop_keeps in E as [Sm Km]. cbn [shape] in Sm.
  destruct (sum_masked L x N m Hok Hx Sm) as (y' & ca' & E & Sy & Gy). rewrite E in H. inversion H; subst y' ca'.
  destruct Hok as [Hs _]. rewrite Gy by (auto; lia).
  rewrite (rsum_ext _ _ (fun k => chan_weight L 1 d o 0 k * vexp x n d k 0)).
  - apply nlog_pos. apply rsum_pos; auto. intros. apply Rmult_lt_0_compat; [apply chan_weight_pos; auto|apply vexp_pos].
  - intros k Hk. destruct (Km [n; d; k]) as (j & Hj & Ej); [simpl; auto|].
    unfold size in Hj. cbn [shape nth] in Hj. rewrite HR in Hj. replace j with 0%nat in Ej by lia.
    cbn [insert_nth] in Ej. rewrite Ej. cbn [kept]. ring.
Qed.
Print Assumptions C28_sum_single.

(** * The hypotheses are met *)
Definition drop_layer (s : list nat) (Rn : nat) : slay := mkL 2 2 2 Rn (mkT s (fun _ => Fin 0)).
Definition drop_input (s : list nat) : tensor num := mkT s (fun idx => Fin (INR (length idx))).
Lemma drop_values a b c d : values (drop_input [a; b; c; d]) a b c d.
Proof. split; auto. intros. eexists. reflexivity. Qed.
Example C28_ex :
  linsum_ok (drop_layer [1; 2; 2; 3]%nat 3) /\ linsum2_ok (drop_layer [2; 2; 2; 3]%nat 3) /\
  sum_ok (drop_layer [2; 2; 2; 3]%nat 3) /\ lfin (logits (drop_layer [2; 2; 2]%nat 3)) (mixing_weight_shape (drop_layer [2; 2; 2]%nat 3)) /\
  (* the first round drops everything, the second nothing: the mixing layer returns *)
  (exists r, mixing_train (fun k _ => k =? 0)%nat (1/2) true 1 (drop_layer [2; 2; 2]%nat 3) (drop_input [3; 2; 2; 2]%nat) = Some r) /\
  (* coins that drop both children of node 0 make the linsum layer raise *)
  linsum_train (fun _ idx => nth 4 idx 0 =? 1)%nat (1/2) true 5 (drop_layer [1; 2; 2; 3]%nat 3) (drop_input [3; 2; 2; 3]%nat) = Some (Err IndexErr).
Proof.
  assert (F: forall s, lfin (mkT s (fun _ => Fin 0)) s) by (intros s; split; auto).
  split; [split; [simpl; lia|split; [simpl; lia|apply F]]|].
  split; [split; [simpl; lia|split; [simpl; lia|apply F]]|].
  split; [split; [simpl; lia|apply F]|]. split; [apply F|]. split.
  - apply (C28_mixing_ends _ _ _ _ _ _ 3); [simpl; lia|apply drop_values|]. exists 1%nat. split; [lia|reflexivity].
  - apply (C28_linsum_refuted _ _ _ _ _ 3 0 0 1); [apply drop_values|lra|left; discriminate|lia|vm_compute; lia|simpl; lia|reflexivity].
Qed.
