(** C33: a MultiDistributionLayer gives every feature to the distribution that lists it, in likelihoods, samples and
    networks; get_params() is in the order of the scopes instead. *)
From Coq Require Import List Arith Lia Bool ZArith Reals Lra Permutation.
Import ListNotations.
From Verif Require Import Base RSum Num Tensor Prob Layers Circuit Net RefFwd RefSample Leaf Perm RefLeaf RefLeafS TypeChecks Einet RefNet RefEinet RefEinetS RefMpe
  RefScopes Build RefBuild Spec RefSpec RefSpecS RefMore RefPack Ex ExBad PropForward PropSample Diff RefDiff Params RefParams PropParams MultiDist RefMulti.
Local Open Scope R_scope.

(** Leaf classes: a constructed leaf has at least one feature (abstract_layers.py:28) and the sizes it was given. *)
Definition leaf_classes {V} (C L Rn : nat) (mk : nat -> nat -> res (bleaf V)) : Prop := forall i n lf, mk i n = Ok lf ->
  leaf_ok lf /\ (0 < n)%nat /\ lf_C lf = C /\ lf_F lf = n /\ lf_L lf = L /\ lf_R lf = Rn.
(** A layer over F features whose scopes list every feature once. *)
Definition layer_of {V} (F C L Rn : nat) (scopes : list (list nat)) (mk : nat -> nat -> res (bleaf V)) (m : multi V) : Prop :=
  (0 < F)%nat /\ Permutation (concat scopes) (seq 0 F) /\ leaf_classes C L Rn mk /\ multi_new F C L Rn scopes mk = Ok m.
(** The i-th scope has feature [f] at position [j], and [lf] is the i-th distribution. *)
Definition listed {V} (scopes : list (list nat)) (mk : nat -> nat -> res (bleaf V)) (f i j : nat) (lf : bleaf V) : Prop :=
  exists sc, nth_error scopes i = Some sc /\ nth_error sc j = Some f /\ mk i (length sc) = Ok lf.

Lemma flat_map_fst {V} (parts : list (list nat * bleaf V)) : all_scopes parts = concat (map fst parts).
Proof. unfold all_scopes. induction parts as [|p ps IH]; cbn; congruence. Qed.
Lemma seq_at n i : (i < n)%nat -> nth_error (seq 0 n) i = Some i.
Proof. intros H. rewrite (nth_error_nth' _ 0%nat) by (rewrite seq_length; auto). rewrite seq_nth by auto. reflexivity. Qed.
Lemma mapM_total {A B} (f : A -> res B) l : (forall a, In a l -> exists b, f a = Ok b) -> exists bs, mapM f l = Ok bs.
Proof.
  induction l as [|a l IH]; cbn [mapM]; intros H; [eauto|]. destruct (H a (or_introl eq_refl)) as (b & ->). cbn [bind].
  destruct IH as (bs & ->); [intros; apply H; right; auto|]. cbn [bind]. eauto.
Qed.
Lemma new_inv {V} F C L Rn scopes mk (m : multi V) : multi_new F C L Rn scopes mk = Ok m ->
  length (concat scopes) = F /\ md_F m = F /\ md_C m = C /\ md_L m = L /\ md_R m = Rn /\ map fst (md_parts m) = scopes /\
  forall i sc lf, nth_error (md_parts m) i = Some (sc, lf) <-> nth_error scopes i = Some sc /\ mk i (length sc) = Ok lf.
Proof.
  unfold multi_new. intros H. apply bind_ok in H as ([] & H1 & H). apply bind_ok in H as (parts & H2 & H). inversion H; subst m; clear H.
  cbn [md_F md_C md_L md_R md_parts]. assert (E: length (concat scopes) = F).
  { destruct (Nat.eqb_spec (length (concat scopes)) F); auto. discriminate. }
  split; auto. do 4 (split; [reflexivity|]).
  set (h := fun i => let sc := nth i scopes [] in lf <- mk i (length sc) ;; Ok (sc, lf)) in *.
  assert (G: forall l ps, mapM h l = Ok ps -> forall i, nth_error ps i = match nth_error l i with
     | Some k => match mk k (length (nth k scopes [])) with Ok lf => Some (nth k scopes [], lf) | Err _ => None end | None => None end /\
     (forall k, nth_error l i = Some k -> exists lf, mk k (length (nth k scopes [])) = Ok lf)).
  { induction l as [|k l IH]; cbn [mapM]; intros ps Hp i.
    - inversion Hp; subst. destruct i; cbn; split; auto; discriminate.
    - apply bind_ok in Hp as (b & Hb & Hp). apply bind_ok in Hp as (bs & Hbs & Hp). inversion Hp; subst ps; clear Hp.
      destruct i as [|i]; cbn [nth_error].
      + unfold h in Hb. cbv zeta in Hb. apply bind_ok in Hb as (lf & Hl & Hb). inversion Hb; subst b. rewrite Hl. split; auto.
        intros k' Hk. inversion Hk; subst. eauto.
      + apply IH. auto. }
  specialize (G _ _ H2).
  assert (LEN: length parts = length scopes).
  { assert (A: forall l ps, mapM h l = Ok ps -> length ps = length l).
    { induction l as [|k l IH]; cbn [mapM]; intros ps Hp; [inversion Hp; auto|].
      apply bind_ok in Hp as (b & Hb & Hp). apply bind_ok in Hp as (bs & Hbs & Hp). inversion Hp; subst ps. cbn. f_equal. auto. }
    rewrite (A _ _ H2), seq_length. reflexivity. }
  assert (NE: forall i sc lf, nth_error parts i = Some (sc, lf) <-> nth_error scopes i = Some sc /\ mk i (length sc) = Ok lf).
  { intros i sc lf. destruct (G i) as [-> G2]. destruct (Nat.lt_ge_cases i (length scopes)) as [Hi|Hi].
    - rewrite seq_at in * by auto. destruct (nth_error scopes i) as [sc'|] eqn:Ni; [|apply nth_error_None in Ni; lia].
      destruct (G2 i eq_refl) as (lf' & El'). pose proof (nth_error_nth _ _ [] Ni) as En. rewrite En in *. rewrite El'. split.
      + intros X. inversion X; subst. auto.
      + intros [X Y]. inversion X; subst. congruence.
    - assert (X: nth_error (seq 0 (length scopes)) i = None) by (apply nth_error_None; rewrite seq_length; auto). rewrite X.
      apply nth_error_None in Hi. rewrite Hi. split; [discriminate|intros [Y _]; discriminate]. }
  split; auto. apply nth_ext with (d := []) (d' := []); rewrite map_length; auto. intros i Hi.
  destruct (nth_error parts i) as [[sc lf]|] eqn:Ni; [|apply nth_error_None in Ni; lia]. pose proof (proj1 (NE _ _ _) Ni) as [Ns _].
  rewrite (nth_error_nth _ _ _ Ns). apply nth_error_nth. rewrite nth_error_map, Ni. reflexivity.
Qed.
Lemma layer_ok {V} F C L Rn scopes mk (m : multi V) : layer_of F C L Rn scopes mk m -> multi_ok m.
Proof.
  intros (HF & HP & HC & HN). destruct (new_inv _ _ _ _ _ _ _ HN) as (_ & E1 & E2 & E3 & E4 & E5 & E6). split.
  - lia.
  - rewrite flat_map_fst, E5, E1. exact HP.
  - intros i sc lf Ni. apply E6 in Ni as [_ Hl]. destruct (HC _ _ _ Hl) as (A & B & D & G & H & I). rewrite E2, E3, E4. auto 10.
Qed.
Lemma listed_serves {V} F C L Rn scopes mk (m : multi V) f i j lf : layer_of F C L Rn scopes mk m ->
  listed scopes mk f i j lf <-> serves m f i j lf.
Proof.
  intros (_ & _ & _ & HN). destruct (new_inv _ _ _ _ _ _ _ HN) as (_ & _ & _ & _ & _ & _ & E6). unfold listed, serves. split.
  - intros (sc & A & B & D). exists sc. split; auto. apply E6. auto.
  - intros (sc & A & B). apply E6 in A as [A D]. exists sc. auto.
Qed.
Lemma layer_fields {V} F C L Rn scopes mk (m : multi V) : layer_of F C L Rn scopes mk m ->
  md_F m = F /\ md_C m = C /\ md_L m = L /\ md_R m = Rn.
Proof. intros (_ & _ & _ & HN). destruct (new_inv _ _ _ _ _ _ _ HN) as (_ & E1 & E2 & E3 & E4 & _). auto. Qed.

(** Scopes that list every feature once are accepted if the leaf classes accept their sizes. *)
Theorem C33_accepted : forall V F C L Rn scopes (mk : nat -> nat -> res (bleaf V)),
  Permutation (concat scopes) (seq 0 F) -> (forall i sc, nth_error scopes i = Some sc -> exists lf, mk i (length sc) = Ok lf) ->
  exists m, multi_new F C L Rn scopes mk = Ok m.
Proof.
  intros V F C L Rn scopes mk HP Hk. unfold multi_new. assert (E: length (concat scopes) = F).
  { rewrite (Permutation_length HP). apply seq_length. }
  rewrite E, Nat.eqb_refl. cbn [assert guard bind].
  destruct (mapM_total (fun i => lf <- mk i (length (nth i scopes [])) ;; Ok (nth i scopes [], lf)) (seq 0 (length scopes))) as (bs & ->).
  - intros i Hi. apply in_seq in Hi. destruct (nth_error scopes i) as [sc|] eqn:Ni; [|apply nth_error_None in Ni; lia].
    rewrite (nth_error_nth _ _ _ Ni). destruct (Hk _ _ Ni) as (lf & ->). cbn [bind]. eauto.
  - cbn [bind]. eauto.
Qed.
Print Assumptions C33_accepted.

(** * The layer *)
(** Values observed in the data are in the support of the distribution of their feature. *)
Definition supported {V} (scopes : list (list nat)) (mk : nat -> nat -> res (bleaf V)) (C : nat) (N : nat) (x : nat -> nat -> nat -> option V) : Prop :=
  forall n c f i j lf v, (n < N)%nat -> (c < C)%nat -> listed scopes mk f i j lf -> x n c f = Some v -> lf_supp lf v = true.

(** Log-likelihoods: output feature f comes from the distribution that lists f, evaluated at input feature f. *)
Theorem C33_forward : forall V F C L Rn scopes mk (m : multi V) N x ms,
  layer_of F C L Rn scopes mk m -> shape x = [N; C; F] -> supported scopes mk C N (fun n c f => get x [n; c; f]) ->
  match ms with None => True | Some s => forall f, In f s -> (f < F)%nat end ->
  exists t, multi_forward m x ms = Ok t /\ shape t = [N; C; F; L; Rn] /\
  forall n c f l r i j lf, (n < N)%nat -> (c < C)%nat -> (l < L)%nat -> (r < Rn)%nat -> listed scopes mk f i j lf ->
    get t [n; c; f; l; r] =
      if match ms with None => false | Some s => existsb (Nat.eqb f) s end then Fin 0
      else match get x [n; c; f] with None => Fin 0 | Some v => lf_logp lf [c; j; l; r] v end.
Proof.
  intros V F C L Rn scopes mk m N x ms HL Sx Hs Hms. pose proof (layer_ok _ _ _ _ _ _ _ HL) as Hm.
  destruct (layer_fields _ _ _ _ _ _ _ HL) as (EF & EC & EL' & ER). subst F C L Rn.
  destruct HL as [A HL']. assert (HL: layer_of (md_F m) (md_C m) (md_L m) (md_R m) scopes mk m) by (split; auto). clear A HL'.
  destruct (served m Hm 0%nat (mo_F m Hm)) as (i0 & j0 & lf0 & _). pose proof (lf_zero lf0) as z. clear i0 j0 lf0.
  destruct (multi_forward_rep z m Hm N x ms Sx) as (t & Et & St & Gt); auto.
    { intros n c f i j lf v Hn Hc SV Hv. apply (Hs n c f i j lf v); auto. eapply listed_serves; eauto. }
    exists t. split; auto. split; auto. intros n c f l r i j lf Hn Hc Hl Hr SV. apply (listed_serves _ _ _ _ _ _ _ _ _ _ _ HL) in SV.
    pose proof (serves_pos m Hm _ _ _ _ SV) as (_ & _ & Hf & _). rewrite Gt by auto. unfold lval, seen, in_ms.
    destruct (match ms with Some s => existsb (Nat.eqb f) s | None => false end); [rewrite ln_1; auto|].
    destruct (get x [n; c; f]) as [v|] eqn:Ev; [|rewrite ln_1; auto].
    unfold pdf. cbn [comb lf_logp]. rewrite (comb_at_serves m Hm _ _ _ _ _ _ _ _ _ SV).
    assert (Sv: lf_supp lf v = true). { apply (Hs n c f i j lf v); auto. eapply listed_serves; eauto. }
    rewrite Sv. destruct SV as (sc & Ni & Nj). destruct (mo_part m Hm _ _ _ Ni) as ((_ & Hfin) & _ & E1 & E2 & E3 & E4).
    assert (Hj: (j < length sc)%nat) by (apply nth_error_Some; congruence).
    specialize (Hfin c j l r v ltac:(lia) ltac:(lia) ltac:(lia) ltac:(lia) Sv). rewrite ln_exp. symmetry. apply isfin_Fin. exact Hfin.
Qed.
Print Assumptions C33_forward.

(** Contexts: for every row a component per feature and a repetition. *)
Definition picks (N F L Rn : nat) (out rep : tensor nat) : Prop :=
  shape out = [N; F] /\ shape rep = [N] /\ (forall n f, (n < N)%nat -> (f < F)%nat -> (get out [n; f] < L)%nat) /\
  (forall n, (n < N)%nat -> (get rep [n] < Rn)%nat).
Definition takes_ctx {V} (m : multi V) : Prop := forall sc lf, In (sc, lf) (md_parts m) -> lf_ctx lf = true.

Lemma ctx_at {V} (m : multi V) : takes_ctx m -> forall i sc lf, nth_error (md_parts m) i = Some (sc, lf) -> lf_ctx lf = true.
Proof. intros H i sc lf Hi. apply (H sc). apply (nth_error_In _ _ Hi). Qed.

(** Samples with component indices (a leaf layer of its own): feature f is drawn by the distribution that lists f, at
    the position of f in its scope, with the component chosen for f; all draws are independent.  [i :: key] is the
    mark of a draw of the i-th distribution. *)
Theorem C33_sample : forall V F C L Rn scopes mk (m : multi V) N out rep,
  layer_of F C L Rn scopes mk m -> takes_ctx m -> picks N F L Rn out rep ->
  (forall supp r, outcome supp (multi_sample m N false (Some out) rep) r -> exists t, r = Ok t /\ shape t = [N; C; F] /\
     forall n c f i j lf, (n < N)%nat -> (c < C)%nat -> listed scopes mk f i j lf ->
       supp [i; c; j; get out [n; f]; get rep [n]] (get t [n; c; f])) /\
  (forall EL (h : nat -> nat -> nat -> V -> R) (part pos : nat -> nat), leaf_expectation EL ->
     (forall f, (f < F)%nat -> exists lf, listed scopes mk f (part f) (pos f) lf) ->
     expect EL (multi_sample m N false (Some out) rep)
       (fun t => rprod N (fun n => rprod C (fun c => rprod F (fun f => h n c f (get t [n; c; f]))))) =
     rprod N (fun n => rprod C (fun c => rprod F (fun f => EL [part f; c; pos f; get out [n; f]; get rep [n]] (h n c f))))).
Proof.
  intros V F C L Rn scopes mk m N out rep HL Hctx (So & Sr & Go & Gr). pose proof (layer_ok _ _ _ _ _ _ _ HL) as Hm.
  destruct (layer_fields _ _ _ _ _ _ _ HL) as (EF & EC & EL' & ER). subst F C L Rn.
  destruct (served m Hm 0%nat (mo_F m Hm)) as (i0 & j0 & lf0 & _). pose proof (lf_zero lf0) as z. clear i0 j0 lf0.
  pose (c0 := mkCtx N out rep false 1). assert (Hc: cgood c0 N (md_F m) (md_L m) (md_R m)) by (repeat split; auto).
  destruct (multi_some z m Hm (ctx_at m Hctx) N c0 Hc) as [[O X] _]. split.
  - intros supp r Ho. destruct (O _ _ Ho) as (t & Er & St & Gt). exists t. split; auto. split; auto.
    intros n c f i j lf Hn Hch SV. apply (listed_serves _ _ _ _ _ _ _ _ _ _ _ HL) in SV.
    pose proof (serves_pos m Hm _ _ _ _ SV) as (_ & _ & Hf & _). specialize (Gt [n; c; f]). cbn [inb] in Gt. specialize (Gt ltac:(auto)).
    rewrite (mark_serves m Hm _ _ _ _ _ _ _ SV) in Gt. exact Gt.
  - intros EL h part pos HEL Hp. specialize (X EL HEL (fun idx v => match idx with [n; ch; f] => h n ch f v | _ => 1 end)).
    rewrite !rprod3_lprod in X. etransitivity; [|etransitivity; [exact X|]].
    + apply (expect_ext EL HEL). intros t. rewrite rprod3_lprod. reflexivity.
    + apply rprod3_ext. intros n c f Hn Hch Hf. destruct (Hp f Hf) as (lf & SV). apply (listed_serves _ _ _ _ _ _ _ _ _ _ _ HL) in SV.
      rewrite (mark_serves m Hm _ _ _ _ _ _ _ SV). reflexivity.
Qed.
Print Assumptions C33_sample.

(** Without component indices (inside a factorized leaf): one draw per component. *)
Theorem C33_sample_all : forall V F C L Rn scopes mk (m : multi V) N rep supp r,
  layer_of F C L Rn scopes mk m -> takes_ctx m -> shape rep = [N] -> (forall n, (n < N)%nat -> (get rep [n] < Rn)%nat) ->
  outcome supp (multi_sample m N false None rep) r -> exists t, r = Ok t /\ shape t = [N; C; F; L] /\
     forall n c f l i j lf, (n < N)%nat -> (c < C)%nat -> (l < L)%nat -> listed scopes mk f i j lf ->
       supp [i; c; j; l; get rep [n]] (get t [n; c; f; l]).
Proof.
  intros V F C L Rn scopes mk m N rep supp r HL Hctx Sr Gr Ho. pose proof (layer_ok _ _ _ _ _ _ _ HL) as Hm.
  destruct (layer_fields _ _ _ _ _ _ _ HL) as (EF & EC & EL' & ER). subst F C L Rn.
  destruct (served m Hm 0%nat (mo_F m Hm)) as (i0 & j0 & lf0 & _). pose proof (lf_zero lf0) as z. clear i0 j0 lf0.
  pose (c0 := mkCtx N (mkT [N; 0%nat] (fun _ => 0%nat)) rep false 1).
  assert (Hc: cgood c0 N 0 (md_L m) (md_R m)) by (repeat split; auto; intros; lia).
  destruct (multi_none z m Hm (ctx_at m Hctx) N c0 0 Hc) as [[O _] _].
  destruct (O _ _ Ho) as (t & Er & St & Gt). exists t. split; auto. split; auto.
  intros n c f l i j lf Hn Hch Hl SV. apply (listed_serves _ _ _ _ _ _ _ _ _ _ _ HL) in SV.
  pose proof (serves_pos m Hm _ _ _ _ SV) as (_ & _ & Hf & _). specialize (Gt [n; c; f; l]). cbn [inb] in Gt. specialize (Gt ltac:(auto)).
  rewrite (mark_serves m Hm _ _ _ _ _ _ _ SV) in Gt. exact Gt.
Qed.
Print Assumptions C33_sample_all.

(** MPE: feature f holds the mode of the distribution that lists f. *)
Theorem C33_modes : forall V F C L Rn scopes mk (m : multi V) N out rep,
  layer_of F C L Rn scopes mk m -> takes_ctx m -> picks N F L Rn out rep -> (forall sc lf, In (sc, lf) (md_parts m) -> lf_mode lf <> None) ->
  exists t, multi_sample m N true (Some out) rep = Ret t /\ shape t = [N; C; F] /\
  forall n c f i j lf, (n < N)%nat -> (c < C)%nat -> listed scopes mk f i j lf ->
    exists md, lf_mode lf = Some md /\ get t [n; c; f] = md [c; j; get out [n; f]; get rep [n]].
Proof.
  intros V F C L Rn scopes mk m N out rep HL Hctx (So & Sr & Go & Gr) Hmd. pose proof (layer_ok _ _ _ _ _ _ _ HL) as Hm.
  destruct (layer_fields _ _ _ _ _ _ _ HL) as (EF & EC & EL' & ER). subst F C L Rn.
  destruct (served m Hm 0%nat (mo_F m Hm)) as (i0 & j0 & lf0 & _). pose proof (lf_zero lf0) as z. clear i0 j0 lf0.
  pose (c0 := mkCtx N out rep false 1). assert (Hc: cgood c0 N (md_F m) (md_L m) (md_R m)) by (repeat split; auto).
  destruct (multi_some z m Hm (ctx_at m Hctx) N c0 Hc) as [_ X].
  assert (Fm: forallb (fun p => match lf_mode (snd p) with Some _ => true | None => false end) (md_parts m) = true).
  { apply forallb_forall. intros [sc lf] Hin. cbn [snd]. specialize (Hmd _ _ Hin). destruct (lf_mode lf); auto. }
  cbn [comb lf_mode] in X. rewrite Fm in X. destruct (X _ eq_refl) as (t & Et & St & Gt). exists t. split; auto. split; auto.
  intros n c f i j lf Hn Hch SV. apply (listed_serves _ _ _ _ _ _ _ _ _ _ _ HL) in SV.
  pose proof (serves_pos m Hm _ _ _ _ SV) as (_ & _ & Hf & _). rewrite Gt by auto. rewrite (comb_at_serves m Hm _ _ _ _ _ _ _ _ _ SV).
  destruct SV as (sc & Ni & _). specialize (Hmd _ _ (nth_error_In _ _ Ni)). destruct (lf_mode lf) as [md|]; [|congruence]. eauto.
Qed.
Print Assumptions C33_modes.

(** * get_params() *)
(** The parameters are listed in the order of the scopes: position p holds those of the p-th listed feature, padded
    with zeros.  [P i] is the number of parameters of the i-th distribution. *)
Theorem C33_params_partial : forall V F C L Rn scopes mk (m : multi V) ps P,
  layer_of F C L Rn scopes mk m -> length ps = length scopes ->
  (forall i sc d, nth_error scopes i = Some sc -> shape (nth i ps d) = [1%nat; C; length sc; L; Rn; P i]) ->
  exists t K, multi_params ps = Ok t /\ shape t = [1%nat; C; F; L; Rn; K] /\ (forall i, (i < length scopes)%nat -> (P i <= K)%nat) /\
  forall p c f l r k i j lf d, nth_error (concat scopes) p = Some f -> listed scopes mk f i j lf ->
    (c < C)%nat -> (l < L)%nat -> (r < Rn)%nat -> (k < K)%nat ->
    get t [0%nat; c; p; l; r; k] = if (k <? P i)%nat then get (nth i ps d) [0%nat; c; j; l; r; k] else Fin 0.
Proof.
  intros V F C L Rn scopes mk m ps P HL Hlen Hps. pose proof (layer_ok _ _ _ _ _ _ _ HL) as Hm.
  destruct (layer_fields _ _ _ _ _ _ _ HL) as (EF & EC & EL' & ER). subst F C L Rn.
  pose proof HL as (_ & HP & _ & HN). destruct (new_inv _ _ _ _ _ _ _ HN) as (_ & _ & _ & _ & _ & Efst & Eparts).
  set (dt := mkT [] (fun _ : list nat => Fin 0)). unfold multi_params.
  destruct ps as [|p0 ps0] eqn:Eps.
  { exfalso. destruct scopes; [|discriminate]. pose proof (parts_ne m Hm) as X. apply X. destruct (md_parts m); [auto|discriminate]. }
  rewrite <- Eps in *. set (K := list_max (map (fun p => last (shape p) 0%nat) ps)).
  assert (HK: forall i, (i < length scopes)%nat -> (P i <= K)%nat).
  { intros i Hi. destruct (nth_error scopes i) as [sc|] eqn:Ni; [|apply nth_error_None in Ni; lia].
    assert (A: Forall (fun k => (k <= K)%nat) (map (fun p => last (shape p) 0%nat) ps)) by (apply list_max_le; unfold K; lia).
    rewrite Forall_forall in A. apply A. apply in_map_iff. exists (nth i ps dt). rewrite (Hps _ _ dt Ni). split; [reflexivity|]. apply nth_In. lia. }
  destruct (mapM_ex (pad_params K) (fun i t => forall sc, nth_error scopes i = Some sc -> shape t = [1%nat; md_C m; length sc; md_L m; md_R m; K] /\
     forall c j l r k, (k < K)%nat -> get t [0%nat; c; j; l; r; k] = if (k <? P i)%nat then get (nth i ps dt) [0%nat; c; j; l; r; k] else Fin 0) dt dt ps) as (bs & Eb & Lb & Gb).
  { intros i Hi. destruct (nth_error scopes i) as [sc|] eqn:Ni; [|apply nth_error_None in Ni; lia].
    pose proof (Hps _ _ dt Ni) as Sp. unfold pad_params. rewrite Sp. cbn [last]. assert (Hi': (i < length scopes)%nat) by lia. specialize (HK i Hi').
    destruct (Nat.ltb_spec (P i) K) as [Hlt|Hge].
    - unfold cat2, dim, size, full. rewrite Sp. cbn [length Nat.sub removelast app set_nth shape get nth]. rewrite eqb_list_refl.
      eexists. split; [reflexivity|]. intros sc' X. inversion X; subst sc'. split; [cbn [shape]; do 5 f_equal; f_equal; lia|].
      intros c j l r k _. cbn [get nth]. reflexivity.
    - eexists. split; [reflexivity|]. intros sc' X. inversion X; subst sc'. rewrite Sp. replace (P i) with K by lia. split; auto.
      intros c j l r k Hk. destruct (Nat.ltb_spec k K); [auto|lia]. }
  rewrite Eps in Eb. cbv beta in Eb. rewrite <- Eps in Eb. rewrite Eb. cbn [bind].
  assert (Lm: length (md_parts m) = length scopes) by (rewrite <- Efst, map_length; auto).
  destruct (cat_list_ok dt 1%nat (md_C m) [md_L m; md_R m; K] (part_sizes (md_parts m)) bs) as (t & Et & St & Gt).
  { intros ->. rewrite <- Lb in Hlen. cbn in Hlen. pose proof (parts_ne m Hm) as X. destruct (md_parts m); [auto|cbn in Lm; lia]. }
  { rewrite part_sizes_length. congruence. }
  { intros i Hi. rewrite Lb in Hi. destruct (nth_error scopes i) as [sc|] eqn:Ni; [|apply nth_error_None in Ni; lia].
    rewrite (proj1 (Gb i Hi sc Ni)). unfold part_sizes. do 2 f_equal. f_equal. symmetry. apply nth_error_nth.
    rewrite <- map_map. rewrite Efst, nth_error_map, Ni. reflexivity. }
  exists t, K. split; [exact Et|]. rewrite part_sizes_sum, (is_perm_length _ _ (mo_perm m Hm)) in St. split; auto. split; auto.
  intros p c f l r k i j lf d Hp SV Hc Hl Hr Hk. apply (listed_serves _ _ _ _ _ _ _ _ _ _ _ HL) in SV. pose proof SV as (sc & Ni & Nj).
  destruct (place _ _ _ _ _ _ Ni Nj) as [Hpl Hj].
  assert (Ep: p = (offset (part_sizes (md_parts m)) i + j)%nat).
  { rewrite flat_map_fst, Efst in Hpl. assert (ND: NoDup (concat scopes)) by (eapply Permutation_NoDup; [symmetry; exact HP|apply seq_NoDup]).
    rewrite NoDup_nth_error in ND. apply ND; [apply nth_error_Some; congruence|congruence]. }
  subst p. apply Eparts in Ni as [Ni _]. assert (Hi: (i < length scopes)%nat) by (apply nth_error_Some; congruence).
  rewrite Gt by (auto; lia). rewrite (proj2 (Gb i ltac:(lia) sc Ni)) by auto. rewrite (nth_indep ps d dt) by lia. reflexivity.
Qed.
Print Assumptions C33_params_partial.
(** So with unsorted scopes the parameters are not in feature order: for the scopes [1], [0] position 0 holds the
    parameters of feature 1, whatever the leaves are. *)
Theorem C33_params_order_refuted : forall V C L Rn (lf0 lf1 : bleaf V) (p0 p1 : tensor num) P, (0 < P)%nat ->
  leaf_classes C L Rn (fun i n => if (n =? 1)%nat then Ok (if (i =? 0)%nat then lf0 else lf1) else Err ValueErr) ->
  shape p0 = [1; C; 1; L; Rn; P]%nat -> shape p1 = [1; C; 1; L; Rn; P]%nat ->
  exists m t, layer_of 2 C L Rn [[1]; [0]]%nat (fun i n => if (n =? 1)%nat then Ok (if (i =? 0)%nat then lf0 else lf1) else Err ValueErr) m /\
  multi_params [p0; p1] = Ok t /\
  forall c l r k, (c < C)%nat -> (l < L)%nat -> (r < Rn)%nat -> (k < P)%nat ->
    get t [0; c; 0; l; r; k]%nat = get p0 [0; c; 0; l; r; k]%nat /\ get t [0; c; 1; l; r; k]%nat = get p1 [0; c; 0; l; r; k]%nat.
Proof.
  intros V C L Rn lf0 lf1 p0 p1 P HP HC S0 S1. set (mk := fun i n => if (n =? 1)%nat then _ else _) in *.
  assert (PM: Permutation (concat [[1]; [0]]%nat) (seq 0 2)) by (cbn; apply perm_swap).
  destruct (C33_accepted V 2 C L Rn [[1]; [0]]%nat mk PM) as (m & Em).
  { intros [|[|i]] sc H; cbn [nth_error] in H; [inversion H|inversion H|destruct i; discriminate]; subst sc; cbn; eauto. }
  assert (HL: layer_of 2 C L Rn [[1]; [0]]%nat mk m) by (split; [lia|auto]).
  destruct (C33_params_partial V 2 C L Rn [[1]; [0]]%nat mk m [p0; p1] (fun _ => P) HL eq_refl) as (t & K & Et & St & HK & Gt).
  { intros [|[|i]] sc d H; cbn [nth_error] in H; [inversion H|inversion H|destruct i; discriminate]; subst sc; cbn [nth length]; auto. }
  exists m, t. split; auto. split; auto. intros c l r k Hc Hl Hr Hk. pose proof (HK 0%nat ltac:(cbn; lia)) as HK0.
  split.
  - rewrite (Gt 0%nat c 1%nat l r k 0%nat 0%nat lf0 p0) by (try reflexivity; try lia; exists [1%nat]; auto).
    destruct (Nat.ltb_spec k P); [reflexivity|lia].
  - rewrite (Gt 1%nat c 0%nat l r k 1%nat 0%nat lf1 p0) by (try reflexivity; try lia; exists [0%nat]; auto).
    destruct (Nat.ltb_spec k P); [reflexivity|lia].
Qed.
Print Assumptions C33_params_order_refuted.
(** The constructor only counts: with the scopes [0], [0] over two features it accepts, and both output features
    are computed from input feature 0. *)
Theorem C33_duplicates_refuted : forall V C L Rn (lf : bleaf V), leaf_ok lf -> lf_C lf = C -> lf_F lf = 1%nat -> lf_L lf = L -> lf_R lf = Rn ->
  exists m, multi_new 2 C L Rn [[0]; [0]]%nat (fun _ _ => Ok lf) = Ok m /\
  forall N x, shape x = [N; C; 2%nat] -> (forall n c f v, get x [n; c; f] = Some v -> lf_supp lf v = true) ->
  exists t, multi_forward m x None = Ok t /\ shape t = [N; C; 2%nat; L; Rn] /\
  forall n c f l r, (n < N)%nat -> (c < C)%nat -> (f < 2)%nat -> (l < L)%nat -> (r < Rn)%nat ->
    get t [n; c; f; l; r] = match get x [n; c; 0%nat] with None => Fin 0 | Some v => lf_logp lf [c; 0%nat; l; r] v end.
Proof.
  intros V C L Rn lf Hlf EC EF EL' ER. eexists. split; [reflexivity|]. intros N x Sx Hs.
  unfold multi_forward. cbn [md_parts mapM fst snd]. unfold index_dim, vec, size. rewrite Sx. cbn [shape length seq forallb get hd nth Nat.ltb Nat.leb andb set_nth bind].
  match goal with |- context [base_forward lf ?X None] => set (xd := X) end.
  destruct (base_forward_rep lf Hlf N xd None) as (t & Et & St & Gt).
  { split; [unfold xd; cbn [shape]; congruence|]. split; auto. intros n c f v _ _ _ Hv. unfold xd in Hv. cbn [get nth set_nth] in Hv. eauto. }
  rewrite Et. cbn [bind cat_list]. unfold cat2, size. rewrite eqb_list_refl, St. cbn [set_nth nth bind]. unfold reorder. cbn [bind].
  replace (needs_inversion _) with false by reflexivity. cbn [bind marginalize_input].
  eexists. split; [reflexivity|]. cbn [shape get]. split; [rewrite EF, EC, EL', ER; reflexivity|].
  intros n c f l r Hn Hc Hf Hl Hr. cbn [nth set_nth]. rewrite EF.
  assert (G: get t [n; c; 0%nat; l; r] = match get x [n; c; 0%nat] with None => Fin 0 | Some v => lf_logp lf [c; 0%nat; l; r] v end).
  { rewrite Gt by lia. unfold lval, seen, xd. cbn [in_ms get nth set_nth]. destruct (get x [n; c; 0%nat]) as [v|] eqn:Ev; [|rewrite ln_1; auto].
    unfold pdf. rewrite ln_exp. symmetry. apply isfin_Fin. apply Hlf; try lia. eauto. }
  assert (NN: isnan (get t [n; c; 0%nat; l; r]) = false) by (rewrite Gt by lia; reflexivity).
  destruct f as [|[|f]]; [| |lia]; change (1 <? 1)%nat with false; change (0 <? 1)%nat with true; cbn [Nat.sub]; rewrite NN; exact G.
Qed.
Print Assumptions C33_duplicates_refuted.

(** * Networks *)
(** The joint leaf [comb z m] has the sizes of the layer, and its component at feature f is that of the distribution
    that lists f. *)
Theorem C33_joint_leaf : forall V F C L Rn scopes mk (m : multi V) z, layer_of F C L Rn scopes mk m ->
  lf_F (comb z m) = F /\ lf_C (comb z m) = C /\ lf_L (comb z m) = L /\ lf_R (comb z m) = Rn /\
  forall f i j lf, listed scopes mk f i j lf ->
    (forall c l r v, lf_supp lf v = true -> lf_logp (comb z m) [c; f; l; r] v = lf_logp lf [c; j; l; r] v) /\
    (forall c l r EL h, relabel m EL [c; f; l; r] h = EL [i; c; j; l; r] h).
Proof.
  intros V F C L Rn scopes mk m z HL. destruct (layer_fields _ _ _ _ _ _ _ HL) as (EF & EC & EL' & ER).
  do 4 (split; [assumption|]). intros f i j lf SV. apply (listed_serves _ _ _ _ _ _ _ _ _ _ _ HL) in SV. pose proof (layer_ok _ _ _ _ _ _ _ HL) as Hm. split.
  - intros c l r v Hv. cbn [comb lf_logp]. rewrite (comb_at_serves m Hm _ _ _ _ _ _ _ _ _ SV). rewrite Hv. reflexivity.
  - intros c l r EL h. unfold relabel. rewrite (mark_serves m Hm _ _ _ _ _ _ _ SV). reflexivity.
Qed.
Print Assumptions C33_joint_leaf.

(** A network built with the layer as its leaf class. *)
Definition net_of {V} (g : config) (o : oracle V) (E : einet V) (scopes : list (list nat)) (mk : nat -> nat -> res (bleaf V)) (m : multi V) (z : V) : Prop :=
  accepted g o E /\ leafE E = comb z m /\ layer_of (e_F E) (e_C E) (e_L E) (e_R E) scopes mk m.

(** Its likelihoods are those of the network with the joint leaf, in all input layouts. *)
Theorem C33_network_forward : forall V g o (E : einet V) scopes mk m z N x ms,
  net_of g o E scopes mk m z -> evidence E N x ms -> supported scopes mk (e_C E) N (entry x) ->
  exists y cs y', multi_einet_forward E m x ms = Ok (y, cs) /\ forward E x ms = Ok y' /\ shape y = [N; e_K E] /\
  forall n k, (n < N)%nat -> (k < e_K E)%nat -> get y [n; k] = get y' [n; k] /\ isfin (get y [n; k]) = true.
Proof.
  intros V g o E scopes mk m z N x ms (HA & El & HL) Hx Hs. pose proof (layer_ok _ _ _ _ _ _ _ HL) as Hm.
  pose proof (evidence_input E N x ms Hx) as Hi. pose proof (accepted_ok _ _ _ HA) as HE.
  destruct (multi_net_forward z m Hm E HE El N x ms Hi) as (y & cs & y' & Ey & Ey' & Sy & Sy' & Gy).
  { intros n c f i j lf v Hn Hc SV Hv. apply (Hs n c f i j lf v); auto. - destruct (dims z m E HE El) as (-> & _). auto. - eapply listed_serves; eauto. }
  exists y, cs, y'. split; auto. split; auto. split; auto. intros n k Hn Hk. rewrite Gy by auto. split; auto.
  destruct (forward_total E HE N x ms Hi) as (y2 & Ey2 & _ & Fy). rewrite Ey' in Ey2. inversion Ey2; subst y2. auto.
Qed.
Print Assumptions C33_network_forward.

(** Sampling, every kind of request: observed entries are kept; every other entry is drawn by (or is the mode of) a
    component of the distribution that lists its feature, at its position there. *)
Theorem C33_network_sample : forall V g o (E : einet V) scopes mk m z a supp r,
  net_of g o E scopes mk m z -> takes_ctx m -> valid_request E a ->
  match a_ev a with None => True | Some e => supported scopes mk (e_C E) (num_samples a) (entry e) end ->
  (a_mpe a || a_mpel a = true -> forall sc lf, In (sc, lf) (md_parts m) -> lf_mode lf <> None) ->
  outcome supp (multi_einet_sample E m a) r ->
  exists t, r = Ok t /\ shape t = match a_ev a with None => [num_samples a; e_C E; e_F E] | Some e => shape e end /\
  forall n c f i j lf, (n < num_samples a)%nat -> (c < e_C E)%nat -> listed scopes mk f i j lf ->
    match given a n c f with
    | Some v => entry t n c f = Some v
    | None => exists w l q, entry t n c f = Some w /\ (l < e_L E)%nat /\ (q < e_R E)%nat /\
        if a_mpe a || a_mpel a then exists md, lf_mode lf = Some md /\ w = md [c; j; l; q] else supp [i; c; j; l; q] w
    end.
Proof.
  intros V g o E scopes mk m z a supp r (HA & El & HL) Hctx (Hch & HN & HT & Hev) Hsup Hmd Ho. pose proof (layer_ok _ _ _ _ _ _ _ HL) as Hm.
  pose proof (accepted_ok _ _ _ HA) as HE.
  assert (R: exists cs v, mready m E a cs v).
  { destruct (a_ev a) as [e|] eqn:Ev.
    - destruct (mready_ev z m Hm E HE El a e Hch Ev HN HT (evidence_input _ _ _ _ Hev)) as (cs & v & H & _); [|eauto].
      intros n c f i j lf v Hn Hc SV Hv. apply (Hsup n c f i j lf v); auto. + destruct (dims z m E HE El) as (-> & _). auto. + eapply listed_serves; eauto.
    - exists (no_caches E), vone. apply (mready_free m E HE); auto. }
  destruct R as (cs & v & Hr).
  destruct (multi_out z m Hm E HE El (ctx_at m Hctx) a cs v Hr) with (supp := supp) (r := r) as (t & Et & St & Gt); auto.
  { intros H. specialize (Hmd H). cbn [comb lf_mode].
    assert (Fm: forallb (fun p => match lf_mode (snd p) with Some _ => true | None => false end) (md_parts m) = true).
    { apply forallb_forall. intros [sc lf] Hin. cbn [snd]. specialize (Hmd _ _ Hin). destruct (lf_mode lf); auto. }
    rewrite Fm. discriminate. }
  exists t. split; auto. split; auto. intros n c f i j lf Hn Hc SV. apply (listed_serves _ _ _ _ _ _ _ _ _ _ _ HL) in SV.
  pose proof (serves_pos m Hm _ _ _ _ SV) as (_ & _ & Hf & _). destruct (dims z m E HE El) as (_ & EF & _). rewrite <- EF in Hf.
  specialize (Gt n c f Hn Hc Hf). rewrite given_kept. fold (kept a n c f) in Gt. destruct (kept a n c f); auto.
  destruct Gt as (w & Ew & i' & j' & lf' & l & q & SV' & Hl & Hq & H). exists w, l, q. split; auto. split; auto. split; auto.
  pose proof (serves_locate m Hm _ _ _ _ SV) as L1. pose proof (serves_locate m Hm _ _ _ _ SV') as L2. rewrite L1 in L2. inversion L2; subst i' j'.
  destruct SV as (sc & N1 & _), SV' as (sc' & N2 & _). rewrite N1 in N2. inversion N2; subst. auto.
Qed.
Print Assumptions C33_network_sample.

(** The law of the samples is that of the network with the joint leaf: jointly over all rows, channels and features. *)
Theorem C33_network_law : forall V g o (E : einet V) scopes mk m z a EL,
  net_of g o E scopes mk m z -> takes_ctx m -> valid_request E a -> a_mpe a = false -> a_mpel a = false -> leaf_expectation EL ->
  match a_ev a with None => True | Some e => supported scopes mk (e_C E) (num_samples a) (entry e) /\ a_tsum a = 1 end ->
  forall h : nat -> nat -> nat -> option V -> R,
  expect EL (multi_einet_sample E m a)
    (fun t => rprod (num_samples a) (fun n => rprod (e_C E) (fun c => rprod (e_F E) (fun f => h n c f (entry t n c f))))) =
  expect (relabel m EL) (sample E a)
    (fun t => rprod (num_samples a) (fun n => rprod (e_C E) (fun c => rprod (e_F E) (fun f => h n c f (entry t n c f))))).
Proof.
  intros V g o E scopes mk m z a EL (HA & El & HL) Hctx (Hch & HN & HT & Hev) Hm1 Hm2 HEL Hsup h. pose proof (layer_ok _ _ _ _ _ _ _ HL) as Hm.
  pose proof (accepted_ok _ _ _ HA) as HE.
  apply (multi_law z m Hm E HE El (ctx_at m Hctx) EL a HEL Hch HN Hm1 Hm2). destruct (a_ev a) as [e|]; [|auto].
  destruct Hsup as [Hsup H1]. split; [apply evidence_input; auto|]. split; auto.
  intros n c f i j lf v Hn Hc SV Hv. apply (Hsup n c f i j lf v); auto. - destruct (dims z m E HE El) as (-> & _). auto. - eapply listed_serves; eauto.
Qed.
Print Assumptions C33_network_law.

(** * Examples: two distributions over five features with unsorted scopes *)
(** Values 0, 1, 2; component [key] gives 2 the probability 1/2. *)
Definition dice (F C L Rn : nat) : bleaf nat :=
  mkLf C F L Rn (fun key v => Fin (ln (if (v =? 2)%nat then 1 / 2 else 1 / 4))) (fun v => (v <? 3)%nat) 0%nat (Some (fun _ => 2%nat)) true.
Definition ex_scopes : list (list nat) := [[3; 0]; [4; 1; 2]]%nat.
Definition ex_mk (i n : nat) : res (bleaf nat) :=
  if (n =? 0)%nat then Err ValueErr else Ok (if (i =? 0)%nat then coin third n 1 2 2 else dice n 1 2 2).
Lemma ex_classes : leaf_classes 1 2 2 ex_mk.
Proof.
  intros i n lf H. unfold ex_mk in H. destruct n as [|n]; [discriminate|]. cbn [Nat.eqb] in H. inversion H; subst lf; clear H.
  destruct (i =? 0)%nat; (split; [|repeat split; lia]).
  - apply coin_ok.
  - split; [reflexivity|]. intros. reflexivity.
Qed.
Lemma ex_layer : exists m, layer_of 5 1 2 2 ex_scopes ex_mk m /\ takes_ctx m /\ forall sc lf, In (sc, lf) (md_parts m) -> lf_mode lf <> None.
Proof.
  assert (P: Permutation (concat ex_scopes) (seq 0 5)) by (unfold ex_scopes; cbn [concat app]; perms).
  eexists. split; [split; [lia|split; [exact P|split; [exact ex_classes|reflexivity]]]|]. split.
  - intros sc lf [H|[H|[]]]; inversion H; reflexivity.
  - intros sc lf [H|[H|[]]]; inversion H; discriminate.
Qed.
Lemma ex_listed : listed ex_scopes ex_mk 2 1 2 (dice 3 1 2 2) /\ listed ex_scopes ex_mk 3 0 0 (coin third 2 1 2 2).
Proof. split; [exists [4; 1; 2]%nat|exists [3; 0]%nat]; auto. Qed.
(** Feature 2 holds a 2, which only the second distribution accepts; feature 1 is missing. *)
Definition ex_mixed : tensor (option nat) :=
  mkT [1; 1; 5]%nat (fun idx => match idx with [_; _; 2%nat] => Some 2%nat | [_; _; 1%nat] => None | _ => Some 1%nat end).
Lemma ex_mixed_supported : supported ex_scopes ex_mk 1 1 (fun n c f => get ex_mixed [n; c; f]).
Proof.
  intros n c f i j lf v _ _ (sc & Ni & Nj & El) Hv. unfold ex_mixed in Hv. cbn [get] in Hv.
  destruct i as [|[|i]]; cbn [ex_scopes nth_error] in Ni; [| |destruct i; discriminate]; inversion Ni; subst sc; clear Ni; cbn in El; inversion El; subst lf;
    cbn [coin dice lf_supp].
  - destruct j as [|[|[|j]]]; cbn in Nj; inversion Nj; subst f; cbn in Hv; inversion Hv; reflexivity.
  - destruct j as [|[|[|[|j]]]]; cbn in Nj; inversion Nj; subst f; cbn in Hv; inversion Hv; reflexivity.
Qed.
Example C33_forward_ex : exists m t, layer_of 5 1 2 2 ex_scopes ex_mk m /\ multi_forward m ex_mixed None = Ok t /\
  get t [0; 0; 2; 1; 1]%nat = Fin (ln (1 / 2)) /\ get t [0; 0; 3; 1; 0]%nat = Fin (ln (1 - 1 / 3)) /\ get t [0; 0; 1; 0; 0]%nat = Fin 0.
Proof.
  destruct ex_layer as (m & HL & _). destruct (C33_forward nat 5 1 2 2 ex_scopes ex_mk m 1 ex_mixed None HL eq_refl ex_mixed_supported I) as (t & Et & St & Gt).
  exists m, t. split; auto. split; auto. destruct ex_listed as [L2 L3].
  assert (L1: listed ex_scopes ex_mk 1 1 1 (dice 3 1 2 2)) by (exists [4; 1; 2]%nat; auto).
  split; [|split].
  - rewrite (Gt 0 0 2 1 1 1 2 (dice 3 1 2 2))%nat by (auto; lia). reflexivity.
  - rewrite (Gt 0 0 3 1 0 0 0 (coin third 2 1 2 2))%nat by (auto; lia). reflexivity.
  - rewrite (Gt 0 0 1 0 0 1 1 (dice 3 1 2 2))%nat by (auto; lia). reflexivity.
Qed.
Example C33_modes_ex : exists m t, layer_of 5 1 2 2 ex_scopes ex_mk m /\
  multi_sample m 2 true (Some (mkT [2; 5]%nat (fun _ => 1%nat))) (mkT [2]%nat (fun _ => 0%nat)) = Ret t /\
  get t [1; 0; 2]%nat = 2%nat /\ get t [1; 0; 3]%nat = 1%nat.
Proof.
  destruct ex_layer as (m & HL & Hc & Hm). destruct ex_listed as [L2 L3].
  destruct (C33_modes nat 5 1 2 2 ex_scopes ex_mk m 2 (mkT [2; 5]%nat (fun _ => 1%nat)) (mkT [2]%nat (fun _ => 0%nat)) HL Hc) as (t & Et & St & Gt); auto.
  { repeat split; cbn; lia. }
  exists m, t. split; auto. split; auto. split.
  - destruct (Gt 1 0 2 1 2 _ ltac:(lia) ltac:(lia) L2)%nat as (md & Em & ->). inversion Em. reflexivity.
  - destruct (Gt 1 0 3 0 0 _ ltac:(lia) ltac:(lia) L3)%nat as (md & Em & ->). inversion Em. unfold third. destruct (Rle_dec (1 / 2) (1 / 3)); [lra|reflexivity].
Qed.
(** A bottom-up network over this layer. *)
Definition ex_multi_o (m : multi nat) : oracle nat :=
  mkOracle (fun i idx => grow (i :: idx)) grow grow grow [1; 2; 1; 1]%nat ex_td_perm (fun F C L R => Ok (comb 0%nat m)).
Lemma ex_net : exists m E, net_of ex_bu_g (ex_multi_o m) E ex_scopes ex_mk m 0%nat /\ takes_ctx m /\ e_F E = 5%nat /\ e_C E = 1%nat /\ e_K E = 1%nat /\
  forall sc lf, In (sc, lf) (md_parts m) -> lf_mode lf <> None.
Proof.
  destruct ex_layer as (m & HL & Hc & Hmd). exists m. pose proof (layer_ok _ _ _ _ _ _ _ HL) as Hm. destruct (layer_fields _ _ _ _ _ _ _ HL) as (EF & EC & EL' & ER).
  assert (HO: oracle_ok ex_bu_g (ex_multi_o m)).
  { destruct ex_bu_oracle as [O1 O2 O3 O4 O5 O6 O7]. split; auto. eexists. split; [reflexivity|]. split; [apply comb_ok; auto|].
    cbn [comb lf_F lf_C lf_L lf_R ex_bu_g plain g_F g_C g_L g_R]. rewrite !nval_nat. auto. }
  destruct (build_succeeds ex_bu_g (ex_multi_o m)) as (E & HE).
  - apply plain_valid; try lia; try lra; try congruence. simpl; lia.
  - reflexivity.
  - exact HO.
  - exists 0%R. split; [constructor|lra].
  - cbn [ex_bu_g plain g_depth zval]. lia.
  - intros _. cbn [ex_bu_g plain g_depth zval]. lia.
  - exists E. assert (A: accepted ex_bu_g (ex_multi_o m) E) by (split; [reflexivity|exact HO|exact HE]).
    destruct (build_inv ex_bu_g (ex_multi_o m) E eq_refl HO HE) as (HEo & EF' & EC' & ER' & EK).
    cbn [ex_bu_g plain g_F g_C g_R g_K] in *. rewrite nval_nat in *.
    assert (LE: leafE E = comb 0%nat m).
    { unfold build in HE. apply bind_ok in HE as ([] & _ & HE). cbn [ex_bu_g plain g_struct] in HE. unfold build_bottom_up in HE.
      apply bind_ok in HE as (? & _ & HE). apply bind_ok in HE as (? & _ & HE). apply bind_ok in HE as (? & _ & HE).
      apply bind_ok in HE as (? & _ & HE). apply bind_ok in HE as (? & _ & HE). apply bind_ok in HE as (lf & Hl & HE).
      apply bind_ok in HE as (? & _ & HE). apply bind_ok in HE as (? & _ & HE).
      inversion HE. unfold leafE. cbn [e_leaf leaf_of]. cbn [ex_multi_o o_leaf] in Hl. inversion Hl. reflexivity. }
    assert (EL2: e_L E = 2%nat) by (rewrite <- (eo_lL E HEo); fold (leafE E); rewrite LE; cbn [comb lf_L]; auto).
    split; [|auto]. split; [exact A|]. split; [exact LE|]. rewrite EF', EC', ER', EL2. exact HL.
Qed.
Example C33_network_ex : exists g o (E : einet nat) m, net_of g o E ex_scopes ex_mk m 0%nat /\ takes_ctx m /\
  (exists y cs, multi_einet_forward E m ex_mixed None = Ok (y, cs) /\ shape y = [1; 1]%nat /\ isfin (get y [0; 0]%nat) = true) /\
  valid_request E (mkArgs None CNone (Some ex_mixed) false false 1 None) /\
  forall supp r, outcome supp (multi_einet_sample E m (mkArgs None CNone (Some ex_mixed) false false 1 None)) r ->
    exists t, r = Ok t /\ entry t 0 0 2 = Some 2%nat /\ exists w l q, entry t 0 0 1 = Some w /\ supp [1; 0; 1; l; q]%nat w.
Proof.
  destruct ex_net as (m & E & HN & Hc & EF & EC & EK & Hmd). exists ex_bu_g, (ex_multi_o m), E, m. split; [exact HN|]. split; [exact Hc|].
  assert (B: evidence E 1 ex_mixed None).
  { split; [|exact I]. split; [right; left; cbn; congruence|]. destruct HN as (_ & -> & _). reflexivity. }
  assert (S: supported ex_scopes ex_mk (e_C E) 1 (entry ex_mixed)).
  { rewrite EC. intros n c f i j lf v Hn Hc' Hl Hv. apply (ex_mixed_supported n c f i j lf v); auto. }
  split.
  - destruct (C33_network_forward nat _ _ E _ _ m _ 1 ex_mixed None HN B S) as (y & cs & y' & Ey & _ & Sy & Gy). exists y, cs. rewrite EK in *. split; auto.
    split; auto. apply Gy; lia.
  - assert (VR: valid_request E (mkArgs None CNone (Some ex_mixed) false false 1 None)).
    { split; [unfold check_args; rewrite EK; reflexivity|]. split; [cbn; lia|]. split; [cbn; lra|]. exact B. }
    split; [exact VR|]. intros supp r Ho.
    destruct (C33_network_sample nat _ _ E _ _ m _ _ supp r HN Hc VR S ltac:(discriminate) Ho) as (t & Et & St & Gt).
    exists t. split; auto. destruct ex_listed as [L2 _]. assert (L1: listed ex_scopes ex_mk 1 1 1 (dice 3 1 2 2)) by (exists [4; 1; 2]%nat; auto). split.
    + exact (Gt 0%nat 0%nat 2%nat 1%nat 2%nat _ ltac:(cbn; lia) ltac:(lia) L2).
    + destruct (Gt 0%nat 0%nat 1%nat 1%nat 1%nat _ ltac:(cbn; lia) ltac:(lia) L1) as (w & l & q & Ew & _ & _ & Hs). exists w, l, q. auto.
Qed.
