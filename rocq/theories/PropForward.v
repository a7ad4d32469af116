(** C01-C06, C13, C48: the forward pass and posterior() of every network the constructor accepts. *)
From Coq Require Import List Arith Lia Bool Reals Lra.
Import ListNotations.
From Verif Require Import Base RSum Num Tensor Prob Layers Leaf RefLeaf Einet RefEinet Build RefBuild Spec RefSpec RefPost Ex.
Local Open Scope R_scope.

(** * C01: the likelihoods of all data points sum to one *)
Theorem C01_normalized : forall g o (E : einet nat) B k,
  accepted g o E -> discrete_leaf B (leafE E) -> (k < e_K E)%nat ->
  lsum (fun w => lik E (point (e_C E) (e_F E) w) None 0 k) (vectors B (e_C E * e_F E)) = 1.
Proof. intros g o E B k HA HB. exact (lik_normalized E (accepted_ok g o E HA) B HB k). Qed.
Print Assumptions C01_normalized.
(** [vectors B n] lists every vector of length n over 0 .. B-1, once. *)
Theorem C01_vectors_complete : forall B n w, In w (vectors B n) <-> length w = n /\ forall i, In i w -> (i < B)%nat.
Proof. exact vectors_complete. Qed.
Print Assumptions C01_vectors_complete.
Theorem C01_vectors_nodup : forall B n, NoDup (vectors B n).
Proof. exact vectors_nodup. Qed.
Print Assumptions C01_vectors_nodup.
Example C01_ex : exists g o (E : einet nat), accepted g o E /\ e_F E = 5%nat /\ e_C E = 2%nat /\ e_R E = 2%nat /\ e_K E = 3%nat /\
  lsum (fun w => lik E (point 2 5 w) None 0 1) (vectors 2 10) = 1.
Proof.
  destruct ex_td as (E & A & HF & HC & HR & HK & D & _). exists ex_td_g, ex_td_o, E. repeat (split; [assumption|]).
  pose proof (C01_normalized _ _ E 2 1 A D ltac:(lia)) as H. rewrite HF, HC in H. exact H.
Qed.
Example C01_ex_bottom_up : exists g o (E : einet nat), accepted g o E /\ g_struct g = SBottomUp /\ e_F E = 5%nat /\ e_R E = 2%nat /\
  lsum (fun w => lik E (point 1 5 w) None 0 0) (vectors 2 5) = 1.
Proof.
  destruct ex_bu as (E & A & HF & HC & HR & HK & D & _). exists ex_bu_g, ex_bu_o, E. split; [assumption|]. split; [reflexivity|]. repeat (split; [assumption|]).
  pose proof (C01_normalized _ _ E 2 0 A D ltac:(lia)) as H. rewrite HF, HC in H. exact H.
Qed.

(** * C02: marginalized_scopes *)
Theorem C02_marginalized_scopes : forall g o (E : einet nat) B N x S n k,
  accepted g o E -> discrete_leaf B (leafE E) -> batch E N x -> scopes_ok E N x S -> (n < N)%nat -> (k < e_K E)%nat ->
  lik E x (Some S) n k =
  sum_points B (e_C E) (e_F E) (hide S (entry x n)) (fun w => lik E (point (e_C E) (e_F E) w) None 0 k).
Proof. intros g o E B N x S n k HA HB Hb Hs. exact (lik_completions E (accepted_ok g o E HA) B HB N x (Some S) n k (batch_input_ms E N x S Hb Hs)). Qed.
Print Assumptions C02_marginalized_scopes.
(** The values inside the marginalized scopes do not matter. *)
Theorem C02_scopes_ignored : forall g o (E : einet nat) N x x' S y y' n k,
  accepted g o E -> batch E N x -> scopes_ok E N x S -> batch E N x' -> scopes_ok E N x' S ->
  forward E x (Some S) = Ok y -> forward E x' (Some S) = Ok y' -> (n < N)%nat -> (k < e_K E)%nat ->
  (forall c f, (c < e_C E)%nat -> (f < e_F E)%nat -> existsb (Nat.eqb f) S = false -> entry x n c f = entry x' n c f) ->
  get y [n; k] = get y' [n; k].
Proof.
  intros g o E N x x' S y y' n k HA Hb Hs Hb' Hs' Hy Hy' Hn Hk H.
  exact (forward_rows E (accepted_ok g o E HA) N N x x' (Some S) y y' n n k (batch_input_ms E N x S Hb Hs) (batch_input_ms E N x' S Hb' Hs') Hy Hy' Hn Hn Hk H).
Qed.
Print Assumptions C02_scopes_ignored.

(** A batch of two rows for the examples: channel c, feature f of row n holds [v n c f]. *)
Definition two_rows (C F : nat) (v : nat -> nat -> nat -> option nat) : tensor (option nat) :=
  mkT [2; C; F]%nat (fun idx => match idx with [n; c; f] => v n c f | _ => None end).
Lemma two_rows_batch (E : einet nat) C F v : e_C E = C -> e_F E = F -> (forall u, lf_supp (leafE E) u = (u <? 2)%nat) ->
  (forall n c f u, v n c f = Some u -> (u < 2)%nat) -> batch E 2 (two_rows C F v).
Proof.
  intros HC HF Hs Hv. split.
  - right. left. cbn. congruence.
  - intros n c f u Hn Hc Hf Hu. rewrite Hs. apply Nat.ltb_lt. apply (Hv n c f). exact Hu.
Qed.
Definition ex_scoped (n c f : nat) : option nat := if (f =? 1)%nat then None else Some ((n + c + f) mod 2)%nat.
Lemma ex_scoped_lt n c f u : ex_scoped n c f = Some u -> (u < 2)%nat.
Proof. unfold ex_scoped. destruct (f =? 1)%nat; [discriminate|]. intros H. assert (u = (n + c + f) mod 2)%nat as -> by congruence. apply Nat.mod_upper_bound. lia. Qed.
Example C02_ex : exists g o (E : einet nat), accepted g o E /\ e_K E = 3%nat /\
  lik E (two_rows 2 5 ex_scoped) (Some [1; 3]%nat) 1 2 =
  sum_points 2 2 5 (hide [1; 3]%nat (ex_scoped 1)) (fun w => lik E (point 2 5 w) None 0 2).
Proof.
  destruct ex_td as (E & A & HF & HC & HR & HK & D & _). exists ex_td_g, ex_td_o, E. repeat (split; [assumption|]).
  pose proof (C02_marginalized_scopes _ _ E 2 2 (two_rows 2 5 ex_scoped) [1; 3]%nat 1 2 A D) as H. rewrite HF, HC in H. apply H; try lia.
  - apply two_rows_batch; auto. intros u. apply (dl_supp 2 _ D). exact ex_scoped_lt.
  - split. + rewrite HF. intros f [<-|[<-|[]]]; lia.
    + intros n c f Hn Hc Hf Hin. unfold entry, two_rows, ix. cbn. unfold ex_scoped. destruct (Nat.eqb_spec f 1) as [->|]; [|discriminate]. exfalso. apply Hin. left. reflexivity.
Qed.

(** * C03: missing entries *)
Theorem C03_missing_entries : forall g o (E : einet nat) B N x n k,
  accepted g o E -> discrete_leaf B (leafE E) -> batch E N x -> (n < N)%nat -> (k < e_K E)%nat ->
  lik E x None n k =
  sum_points B (e_C E) (e_F E) (entry x n) (fun w => lik E (point (e_C E) (e_F E) w) None 0 k).
Proof. intros g o E B N x n k HA HB Hb. exact (lik_completions E (accepted_ok g o E HA) B HB N x None n k (batch_input E N x Hb)). Qed.
Print Assumptions C03_missing_entries.
(** Row 0 misses feature 0 in channel 1, row 1 misses features 2 and 3 in channel 0. *)
Definition ex_missing (n c f : nat) : option nat :=
  match n, c, f with 0, 1, 0 | 1, 0, 2 | 1, 0, 3 => None | _, _, _ => Some ((n + c + f) mod 2) end%nat.
Lemma ex_missing_lt n c f u : ex_missing n c f = Some u -> (u < 2)%nat.
Proof.
  assert (A: forall m, Some (m mod 2)%nat = Some u -> (u < 2)%nat) by (intros m H; assert (u = m mod 2)%nat as -> by congruence; apply Nat.mod_upper_bound; lia).
  unfold ex_missing. destruct n as [|[|n]], c as [|[|c]], f as [|[|[|[|f]]]]; try discriminate; apply A.
Qed.
Example C03_ex : exists g o (E : einet nat), accepted g o E /\ e_K E = 3%nat /\
  forall n, (n < 2)%nat -> lik E (two_rows 2 5 ex_missing) None n 2 =
  sum_points 2 2 5 (ex_missing n) (fun w => lik E (point 2 5 w) None 0 2).
Proof.
  destruct ex_td as (E & A & HF & HC & HR & HK & D & _). exists ex_td_g, ex_td_o, E. repeat (split; [assumption|]). intros n Hn.
  pose proof (C03_missing_entries _ _ E 2 2 (two_rows 2 5 ex_missing) n 2 A D) as H. rewrite HF, HC in H. apply H; try lia.
  apply two_rows_batch; auto. intros u. apply (dl_supp 2 _ D). exact ex_missing_lt.
Qed.

(** * C04: everything missing *)
Theorem C04_all_missing : forall V g o (E : einet V) N x n k,
  accepted g o E -> batch E N x -> (n < N)%nat -> (k < e_K E)%nat ->
  (forall c f, (c < e_C E)%nat -> (f < e_F E)%nat -> entry x n c f = None) ->
  exists y, forward E x None = Ok y /\ get y [n; k] = Fin 0.
Proof. 
  intros V g o E N x n k HA Hb Hn Hk H. 
  exact (forward_missing E (accepted_ok g o E HA) N x None n k (batch_input E N x Hb) Hn Hk (fun c f Hc Hf => or_intror (H c f Hc Hf))).
Qed.
Print Assumptions C04_all_missing.
Theorem C04_all_scopes : forall V g o (E : einet V) N x S n k,
  accepted g o E -> batch E N x -> scopes_ok E N x S -> (n < N)%nat -> (k < e_K E)%nat ->
  (forall f, (f < e_F E)%nat -> existsb (Nat.eqb f) S = true) ->
  exists y, forward E x (Some S) = Ok y /\ get y [n; k] = Fin 0.
Proof.
  intros V g o E N x S n k HA Hb Hs Hn Hk H.
  exact (forward_missing E (accepted_ok g o E HA) N x (Some S) n k (batch_input_ms E N x S Hb Hs) Hn Hk (fun c f Hc Hf => or_introl (H f Hf))).
Qed.
Print Assumptions C04_all_scopes.
Example C04_ex : exists g o (E : einet nat), accepted g o E /\ e_K E = 3%nat /\
  exists y, forward E (two_rows 2 5 (fun n c f => if (n =? 0)%nat then None else Some 1%nat)) None = Ok y /\ get y [0; 2]%nat = Fin 0.
Proof.
  destruct ex_td as (E & A & HF & HC & HR & HK & D & _). exists ex_td_g, ex_td_o, E. repeat (split; [assumption|]).
  apply (C04_all_missing nat ex_td_g ex_td_o E 2); auto; try lia.
  apply two_rows_batch; auto. { intros u. apply (dl_supp 2 _ D). } intros n c f u. destruct (n =? 0)%nat; [discriminate|]. intros H. inversion H. lia.
Qed.

(** * C05: well-shaped data never makes the forward pass fail *)
Theorem C05_forward_total : forall V g o (E : einet V) N x,
  accepted g o E -> batch E N x ->
  exists y, forward E x None = Ok y /\ shape y = [N; e_K E] /\
    forall n k, (n < N)%nat -> (k < e_K E)%nat -> isfin (get y [n; k]) = true.
Proof. intros V g o E N x HA Hb. exact (forward_total E (accepted_ok g o E HA) N x None (batch_input E N x Hb)). Qed.
Print Assumptions C05_forward_total.
Theorem C05_forward_total_scopes : forall V g o (E : einet V) N x S,
  accepted g o E -> batch E N x -> scopes_ok E N x S ->
  exists y, forward E x (Some S) = Ok y /\ shape y = [N; e_K E] /\
    forall n k, (n < N)%nat -> (k < e_K E)%nat -> isfin (get y [n; k]) = true.
Proof. intros V g o E N x S HA Hb Hs. exact (forward_total E (accepted_ok g o E HA) N x (Some S) (batch_input_ms E N x S Hb Hs)). Qed.
Print Assumptions C05_forward_total_scopes.
Example C05_ex : exists g o (E : einet nat), accepted g o E /\
  exists y, forward E (two_rows 2 5 ex_missing) None = Ok y /\ shape y = [2; 3]%nat /\ isfin (get y [1; 2]%nat) = true.
Proof.
  destruct ex_td as (E & A & HF & HC & HR & HK & D & _). exists ex_td_g, ex_td_o, E. split; [assumption|].
  destruct (C05_forward_total nat ex_td_g ex_td_o E 2 (two_rows 2 5 ex_missing) A) as (y & Ey & Sy & Fy).
  - apply two_rows_batch; auto. intros u. apply (dl_supp 2 _ D). exact ex_missing_lt.
  - exists y. split; [exact Ey|]. rewrite HK in *. split; [exact Sy|]. apply Fy; lia.
Qed.

(** * C06: rows are independent *)
Theorem C06_rows_independent : forall V g o (E : einet V) N N' x x' y y' n n' k,
  accepted g o E -> batch E N x -> batch E N' x' -> forward E x None = Ok y -> forward E x' None = Ok y' ->
  (n < N)%nat -> (n' < N')%nat -> (k < e_K E)%nat ->
  (forall c f, (c < e_C E)%nat -> (f < e_F E)%nat -> entry x n c f = entry x' n' c f) ->
  get y [n; k] = get y' [n'; k].
Proof.
  intros V g o E N N' x x' y y' n n' k HA Hb Hb' Hy Hy' Hn Hn' Hk H.
  exact (forward_rows E (accepted_ok g o E HA) N N' x x' None y y' n n' k (batch_input E N x Hb) (batch_input E N' x' Hb') Hy Hy' Hn Hn' Hk (fun c f Hc Hf _ => H c f Hc Hf)).
Qed.
Print Assumptions C06_rows_independent.
(** Swapping the two rows of a batch swaps the rows of the result. *)
Example C06_ex : exists g o (E : einet nat) y y', accepted g o E /\ forward E (two_rows 2 5 ex_missing) None = Ok y /\
  forward E (two_rows 2 5 (fun n => ex_missing (1 - n))) None = Ok y' /\ get y [0; 1]%nat = get y' [1; 1]%nat.
Proof.
  destruct ex_td as (E & A & HF & HC & HR & HK & D & _).
  assert (B1: batch E 2 (two_rows 2 5 ex_missing)) by (apply two_rows_batch; auto; [intros u; apply (dl_supp 2 _ D)|exact ex_missing_lt]).
  assert (B2: batch E 2 (two_rows 2 5 (fun n => ex_missing (1 - n)))) by (apply two_rows_batch; auto; [intros u; apply (dl_supp 2 _ D)|intros n; apply ex_missing_lt]).
  destruct (C05_forward_total _ _ _ E 2 _ A B1) as (y & Ey & _). destruct (C05_forward_total _ _ _ E 2 _ A B2) as (y' & Ey' & _).
  exists ex_td_g, ex_td_o, E, y, y'. repeat (split; [assumption|]).
  apply (C06_rows_independent nat ex_td_g ex_td_o E 2 2 _ _ y y' 0 1 1 A B1 B2 Ey Ey'); try lia. intros c f _ _. reflexivity.
Qed.

(** * C13: posterior *)
Theorem C13_posterior_of : forall ll N K (l : nat -> nat -> R), (0 < K)%nat -> shape ll = [N; K] ->
  (forall n k, (n < N)%nat -> (k < K)%nat -> get ll [n; k] = Fin (l n k)) ->
  exists y, posterior_of ll K = Ok y /\ shape y = [N; K] /\
    (forall n k, (n < N)%nat -> (k < K)%nat -> pval (get y [n; k]) = exp (l n k) / rsum K (fun j => exp (l n j)) /\ 0 < pval (get y [n; k])) /\
    (forall n, (n < N)%nat -> rsum K (fun k => pval (get y [n; k])) = 1) /\
    (forall n j k, (n < N)%nat -> (j < K)%nat -> (k < K)%nat -> (pval (get y [n; j]) <= pval (get y [n; k]) <-> l n j <= l n k)).
Proof. exact posterior_of_bayes. Qed.
Print Assumptions C13_posterior_of.
Theorem C13_posterior_shift : forall ll ll' N K (l : nat -> nat -> R) (c : nat -> R),
  (0 < K)%nat -> shape ll = [N; K] -> shape ll' = [N; K] ->
  (forall n k, (n < N)%nat -> (k < K)%nat -> get ll [n; k] = Fin (l n k) /\ get ll' [n; k] = Fin (l n k + c n)) ->
  exists y y', posterior_of ll K = Ok y /\ posterior_of ll' K = Ok y' /\
    forall n k, (n < N)%nat -> (k < K)%nat -> get y [n; k] = get y' [n; k].
Proof. exact posterior_of_shift. Qed.
Print Assumptions C13_posterior_shift.
Theorem C13_posterior_network : forall V g o (E : einet V) N x,
  accepted g o E -> (1 < e_K E)%nat -> batch E N x ->
  exists y, posterior E x = Ok y /\ shape y = [N; e_K E] /\
    forall n k, (n < N)%nat -> (k < e_K E)%nat ->
      pval (get y [n; k]) = lik E x None n k / rsum (e_K E) (fun j => lik E x None n j) /\
      rsum (e_K E) (fun j => pval (get y [n; j])) = 1.
Proof. intros V g o E N x HA HK Hb. exact (posterior_bayes E (accepted_ok g o E HA) N x HK (batch_input E N x Hb)). Qed.
Print Assumptions C13_posterior_network.
Example C13_ex : exists g o (E : einet nat) y, accepted g o E /\ posterior E (two_rows 2 5 ex_missing) = Ok y /\ shape y = [2; 3]%nat.
Proof.
  destruct ex_td as (E & A & HF & HC & HR & HK & D & _).
  destruct (C13_posterior_network nat ex_td_g ex_td_o E 2 (two_rows 2 5 ex_missing) A ltac:(lia)) as (y & Ey & Sy & _).
  - apply two_rows_batch; auto; [intros u; apply (dl_supp 2 _ D)|exact ex_missing_lt].
  - exists ex_td_g, ex_td_o, E, y. rewrite HK in Sy. auto.
Qed.

(** * C48: monotonicity *)
(** [set_leaf E lf'] is the network E with the leaf lf'. *)
Theorem C48_monotone_leaves : forall V g o (E : einet V) lf' N x n k,
  accepted g o E -> leaf_ok lf' -> same_sizes (leafE E) lf' -> (forall v, lf_supp lf' v = lf_supp (leafE E) v) ->
  (forall c f l r v, (c < e_C E)%nat -> (f < e_F E)%nat -> (l < e_L E)%nat -> (r < e_R E)%nat -> lf_supp (leafE E) v = true ->
     pval (lf_logp (leafE E) [c; f; l; r] v) <= pval (lf_logp lf' [c; f; l; r] v)) ->
  batch E N x -> (n < N)%nat -> (k < e_K E)%nat ->
  lik E x None n k <= lik (set_leaf E lf') x None n k.
Proof.
  intros V g o E lf' N x n k HA Hl Hs Hsu Hle Hb.
  exact (lik_mono_leaf E lf' N x None n k (accepted_ok g o E HA) Hl Hs Hsu Hle (batch_input E N x Hb)).
Qed.
Print Assumptions C48_monotone_leaves.
(** Row n' of x' is row n of x with some entries removed. *)
Theorem C48_monotone_missing : forall g o (E : einet nat) B N N' x x' n n' k,
  accepted g o E -> discrete_leaf B (leafE E) -> batch E N x -> batch E N' x' -> (n < N)%nat -> (n' < N')%nat -> (k < e_K E)%nat ->
  (forall c f, (c < e_C E)%nat -> (f < e_F E)%nat -> entry x' n' c f = None \/ entry x' n' c f = entry x n c f) ->
  lik E x None n k <= lik E x' None n' k.
Proof.
  intros g o E B N N' x x' n n' k HA HB Hb Hb' Hn Hn' Hk H.
  exact (lik_mono_missing E B N N' x x' None None n n' k (accepted_ok g o E HA) HB (batch_input E N x Hb) (batch_input E N' x' Hb') Hn Hn' Hk
    (fun c f Hc Hf => match H c f Hc Hf with or_introl h => or_intror (or_introl h) | or_intror h => or_intror (or_intror (conj eq_refl h)) end)).
Qed.
Print Assumptions C48_monotone_missing.
Theorem C48_monotone_scopes : forall g o (E : einet nat) B N x S S' n k,
  accepted g o E -> discrete_leaf B (leafE E) -> batch E N x -> scopes_ok E N x S -> scopes_ok E N x S' -> (n < N)%nat -> (k < e_K E)%nat ->
  (forall f, In f S -> In f S') ->
  lik E x (Some S) n k <= lik E x (Some S') n k.
Proof.
  intros g o E B N x S S' n k HA HB Hb Hs Hs' Hn Hk H.
  exact (lik_mono_scopes E B N x S S' n k (accepted_ok g o E HA) HB Hb Hs Hs' Hn Hk H).
Qed.
Print Assumptions C48_monotone_scopes.
(** Replacing the leaves of the example by fully certain ones raises every likelihood. *)
Example C48_ex : exists g o (E : einet nat), accepted g o E /\
  lik E (two_rows 2 5 ex_missing) None 0 1 <=
  lik (set_leaf E (mkLf 2 5 2 2 (fun _ _ => Fin 0) (fun v => (v <? 2)%nat) 0%nat None true)) (two_rows 2 5 ex_missing) None 0 1 /\
  lik E (two_rows 2 5 (fun _ _ _ => Some 1%nat)) None 0 1 <= lik E (two_rows 2 5 (fun _ c _ => if (c =? 0)%nat then None else Some 1%nat)) None 1 1.
Proof.
  destruct ex_td as (E & A & HF & HC & HR & HK & D & _ & HL). exists ex_td_g, ex_td_o, E. split; [exact A|].
  pose proof (accepted_ok _ _ _ A) as HE.
  assert (S1: forall v, (forall n c f u, v n c f = Some u -> (u < 2)%nat) -> batch E 2 (two_rows 2 5 v)) by (intros v Hv; apply two_rows_batch; auto; intros u; apply (dl_supp 2 _ D)).
  split.
  - apply (C48_monotone_leaves nat ex_td_g ex_td_o E _ 2); auto; try lia.
    + split; [reflexivity|]. intros; reflexivity.
    + unfold same_sizes, leafE. cbn. rewrite (eo_lC E HE), (eo_lF E HE), (eo_lL E HE), (eo_lR E HE). lia.
    + intros v. rewrite (dl_supp 2 _ D). reflexivity.
    + intros c f l r v Hc Hf Hl Hr Hv. cbn [lf_logp pval]. rewrite exp_0. rewrite (dl_supp 2 _ D) in Hv. apply Nat.ltb_lt in Hv.
      rewrite (pval_pdf E HE 2 D) by auto. apply (pdf_le_1 E HE 2 D); auto.
    + apply S1. exact ex_missing_lt.
  - apply (C48_monotone_missing ex_td_g ex_td_o E 2 2 2); auto; try lia.
    + apply S1. intros n c f u H. inversion H. lia.
    + apply S1. intros n c f u. destruct (c =? 0)%nat; [discriminate|]. intros H. inversion H. lia.
    + intros c f _ _. unfold entry, two_rows, ix. cbn. destruct (c =? 0)%nat; auto.
Qed.
